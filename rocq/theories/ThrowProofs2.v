(** Exceptions inside the methods of Array. *)
From Coq Require Import List Arith ZArith Lia Bool.
From Verif Require Import Base BaseProofs Mem MemProofs BufferManip BufferManipProofs Indexing IndexingSpec IndexingProofs
  IndexingProofs2 IndexingProofs3 Array ArraySpec ArrayProofs ArrayProofs2 ArrayProofs3 Throw ThrowSpec ThrowProofs.
From Verif Require ArrayManip ArrayManipProofs.
Import ListNotations.
Set Implicit Arguments.

Lemma z_prod ds : fold_right Z.mul 1%Z (map Z.of_nat ds) = Z.of_nat (prod ds).
Proof. induction ds as [|d ds IH]; simpl; auto. rewrite IH, Nat2Z.inj_mul. auto. Qed.

Lemma t_dtor_eq V chk kind (t : tarray V) m : t_size t = Z.of_nat m ->
  t_dtor chk false kind t = (_ <- BufferManip.free chk false kind (t_buf t) m ;; Ok tt).
Proof.
  intros E. unfold t_dtor. rewrite E. rewrite check_if_ok by (apply Z.ltb_ge; lia). cbn [bind]. rewrite Nat2Z.id. auto.
Qed.

Section Grow.
Variable V : Type.
Variable chk : bool.
Notation mem := (@mem V false).
Notation LVs := (map (@LV V)).

Lemma x_grow_spec S A v k : forall b us tl n,
  mem b (LVs us ++ repeat LN (A * k) ++ tl) -> length us = S * k ->
  xspec (xfor_down k (fun i k b =>
           xbind (xlift k b (ArrayManip.shiftUp chk false b (S * i) S 0 (A * i)))
                 (fun k1 b1 => xfor_up A (fun j k b => x_construct false k b (S * i + S + A * i + j) v) 0 k1 b1)) n b)
    (fun n' b' => n = n' + A * k /\
       for_down k (fun i b =>
         b1 <- ArrayManip.shiftUp chk false b (S * i) S 0 (A * i) ;;
         for_up A (fun j b => construct false b (S * i + S + A * i + j) v) 0 b1) b = Ok b')
    (fun w t => w = Element /\ n < A * k /\ length t = length b /\
       exists p s, mem t (p ++ LN :: s) /\ Forall live p /\ length p < S * k + A * k).
Proof.
  induction k as [|k IH]; intros b us tl n M L; cbn [xfor_down for_down].
  - simpl. rewrite Nat.mul_0_r. auto.
  - destruct (@split_at _ us (S * k)) as (us' & bl & -> & Lu); [lia|].
    assert (Lb : length bl = S) by (rewrite app_length in L; lia).
    destruct (@ArrayManipProofs.shiftUp_ok V chk false b (LVs us') [] bl (A * k) (repeat LN A ++ tl) (S * k) S 0) as (b1 & E1 & M1).
    + eapply mem_cast; [exact M|]. replace (A * Datatypes.S k) with (A * k + A) by lia.
      rewrite map_app, repeat_app_add, <- !app_assoc. reflexivity.
    + rewrite map_length. auto.
    + reflexivity.
    + simpl. auto.
    + rewrite E1. cbn [xlift xbind bind]. simpl app in M1.
      assert (LB : length b1 = length b).
      { apply mem_length in M1. apply mem_length in M. rewrite M1, M. rewrite !app_length, !map_length, !app_length, !repeat_length. lia. }
      eapply xspec_bind.
      * eapply xspec_mono.
        -- apply (@x_run_spec V A b1 (LVs us' ++ repeat LN (A * k) ++ LVs bl) tl v n 0 (S * k + S + A * k)).
           ++ eapply mem_cast; [exact M1|]. rewrite <- !app_assoc. reflexivity.
           ++ rewrite !app_length, !map_length, repeat_length. lia.
        -- intros n' b' X. exact X.
        -- intros w t (-> & Ln & Mt). split; auto. split; [nia|]. split.
           { apply mem_length in Mt. rewrite <- LB. apply mem_length in M1. rewrite Mt, M1.
             rewrite !app_length, !map_length, !repeat_length. lia. }
           destruct k as [|k'].
           ++ rewrite Nat.mul_0_r in Mt. simpl repeat in Mt. replace (A - n) with (Datatypes.S (A - n - 1)) in Mt by lia.
              exists (LVs us' ++ LVs bl ++ LVs (repeat v n)), (repeat LN (A - n - 1) ++ tl). split.
              ** eapply mem_cast; [exact Mt|]. simpl. rewrite <- !app_assoc. reflexivity.
              ** split.
                 --- repeat (apply Forall_app; split); apply live_LVs.
                 --- rewrite !app_length, !map_length, repeat_length. lia.
           ++ exists (LVs us'), (repeat LN (A * Datatypes.S k' - 1) ++ LVs bl ++ LVs (repeat v n) ++ repeat LN (A - n) ++ tl).
              split.
              ** eapply mem_cast; [exact Mt|]. replace (A * Datatypes.S k') with (Datatypes.S (A * Datatypes.S k' - 1)) at 1 by nia.
                 simpl. rewrite <- !app_assoc. simpl. rewrite <- !app_assoc. reflexivity.
              ** split; [apply live_LVs|]. rewrite map_length. nia.
      * intros n' b' (-> & E2). rewrite E2. cbn [bind].
        pose proof (@ArrayManipProofs.construct_run_ok V false b1 (LVs us' ++ repeat LN (A * k) ++ LVs bl) tl v A 0 (S * k + S + A * k)) as C.
        destruct C as (b2 & E3 & M3).
        { eapply mem_cast; [exact M1|]. rewrite <- !app_assoc. reflexivity. }
        { rewrite !app_length, !map_length, repeat_length. lia. }
        rewrite E2 in E3. injection E3 as <-.
        eapply xspec_mono.
        -- apply (IH b' us' (LVs bl ++ LVs (repeat v A) ++ tl) n').
           ++ eapply mem_cast; [exact M3|]. rewrite <- !app_assoc. reflexivity.
           ++ auto.
        -- intros n2 b3 (-> & E4). split; [nia|]. exact E4.
        -- intros w t (-> & Ln & LT & p & s & Mt & Fp & Lp). split; auto. split; [nia|]. split.
           ++ rewrite LT. rewrite <- LB. apply mem_length in M3. apply mem_length in M1. rewrite M3, M1.
              rewrite !app_length, !map_length, !repeat_length. lia.
           ++ exists p, s. split; auto. split; auto. nia.
Qed.
End Grow.

Section XA.
Variable V : Type.
Variable chk : bool.
Variable perm : list nat.
Variable dflt : V.
Hypothesis P : is_permutation perm (length perm).
Hypothesis NZ : 0 < length perm.
Notation NDIM := (length perm).
Notation LVs := (map (@LV V)).
Notation arr_ok := (@arr_ok V false perm).
Notation holds := (@BufferManipProofs.holds V false).

Lemma t_size_shape (a : array V) dims b : t_size (left_shape perm a dims b) = Z.of_nat (prod dims).
Proof. unfold t_size, left_shape. cbn. apply z_prod. Qed.
Lemma t_size_buf (a : array V) b : t_size (left_buf a b) = Z.of_nat (prod (a_dims a)).
Proof. unfold t_size, left_buf. cbn. apply z_prod. Qed.

Lemma grown_broken kind (a : array V) dims t ws : holds t ws -> length ws < prod dims <= length t ->
  t_dtor chk false kind (left_shape perm a dims t) = Fault FDestroy.
Proof.
  intros H L. rewrite (t_dtor_eq _ _ _ _ (t_size_shape a dims t)). cbn [left_shape t_buf].
  rewrite (free_broken_holds chk kind H L). auto.
Qed.

(** resize to new extents *)
Lemma x_shape_spec kind a vs dims v n : arr_ok a vs -> can_grow kind (a_buf a) (prod dims) ->
  xspec (xbind (xleft (left_shape perm a dims) (x_resize chk false kind n (a_buf a) (size a) (multiplyAll dims) v))
               (fun n b => XOk n (set_shape perm a dims b)))
    (fun n' a' => n = n' + (prod dims - length vs) /\
       (b <- BufferManip.resize chk false kind (a_buf a) (size a) (multiplyAll dims) v ;; Ok (set_shape perm a dims b)) = Ok a')
    (fun w t => w = Element /\ n < prod dims - length vs /\ t_dims t = map Z.of_nat dims /\
       t_dtor chk false kind t = Fault FDestroy).
Proof.
  intros A G. rewrite (size_ok A), !multiplyAll_prod. destruct A as (L & S & R & LV & H).
  eapply xspec_bind.
  - apply xspec_left. eapply xspec_mono; [apply (x_resize_spec chk v n H G)| |].
    + intros n' b X. exact X.
    + intros w t (-> & Ln & Ht & Lt). split; auto. split; auto. split; [reflexivity|].
      eapply grown_broken; [exact Ht|]. rewrite app_length, repeat_length. lia.
  - intros n' b (-> & E). cbn [xspec]. rewrite E. auto.
Qed.

Lemma x_rdd_spec a vs m v n : arr_ok a vs ->
  xspec (x_resizeDefaultDimension chk false BMalloc perm n a (Z.of_nat m) v)
    (fun n' a' => n = n' + (prod (upd (a_dims a) (a_rix a) m) - length vs) /\
       resizeDefaultDimension chk false BMalloc perm a (Z.of_nat m) v = Ok a')
    (fun w t => w = Element /\ n < prod (upd (a_dims a) (a_rix a) m) - length vs /\
       t_dims t = map Z.of_nat (upd (a_dims a) (a_rix a) m) /\ t_dtor chk false BMalloc t = Fault FDestroy).
Proof.
  intros A. pose proof A as (L & S & R & LV & H).
  destruct (perm_split P R) as (po & pi & E & N1 & N2).
  destruct (@rdd_ok V chk false BMalloc perm P NZ a vs m v po pi A E N1 N2 ltac:(left; auto)) as (a' & Ea & Da & Ra & _).
  unfold x_resizeDefaultDimension. rewrite error_if_ok by (apply Z.ltb_ge; lia). cbn [xlift xbind].
  cbv zeta. rewrite Nat2Z.id.
  pose proof Ea as Ea'. unfold resizeDefaultDimension in Ea'. rewrite error_if_ok in Ea' by (apply Z.ltb_ge; lia). cbn [bind] in Ea'.
  cbv zeta in Ea'. rewrite Nat2Z.id in Ea'.
  destruct ((NDIM =? 1) || (nth 0 perm 0 =? a_rix a))%bool eqn:Simple.
  - eapply xspec_mono; [apply (@x_shape_spec BMalloc a vs (upd (a_dims a) (a_rix a) m) v n A); left; auto| |].
    + intros n' a2 (-> & E2). split; auto. congruence.
    + intros w t X. exact X.
  - rewrite (size_ok A), !multiplyAll_prod in *.
    destruct (prod (upd (a_dims a) (a_rix a) m) =? length vs) eqn:EQ.
    + apply Nat.eqb_eq in EQ. cbn [xspec]. split; [lia|]. congruence.
    + apply Nat.eqb_neq in EQ.
      pose proof (split_prod P E L) as SP. pose proof (split_prod_upd P NZ m E N1 N2 L R) as SU. pose proof (split_stride P E L) as SS.
      set (outer := prod (gather po (a_dims a))) in *. set (inner := prod (gather pi (a_dims a))) in *.
      set (cur := nth (a_rix a) (a_dims a) 0) in *.
      destruct (cur <? m) eqn:CM.
      * apply Nat.ltb_lt in CM.
        destruct (@reserve_ok V chk false BMalloc (a_buf a) vs (prod (upd (a_dims a) (a_rix a) m)) H ltac:(left; auto)) as (b1 & E1 & H1 & L1).
        rewrite E1 in *. cbn [xlift xbind bind] in *.
        assert (LVS : length vs = outer * (cur * inner)) by lia.
        assert (inner <> 0) by nia. assert (outer <> 0) by nia.
        rewrite S, SS in *.
        assert (IT : (prod (upd (a_dims a) (a_rix a) m) - length vs) / (inner * (m - cur)) = outer).
        { replace (prod (upd (a_dims a) (a_rix a) m) - length vs) with (outer * (inner * (m - cur))) by nia.
          apply Nat.div_mul. nia. }
        rewrite IT in *.
        assert (DF : prod (upd (a_dims a) (a_rix a) m) - length vs = inner * (m - cur) * outer) by nia.
        eapply xspec_bind.
        -- apply xspec_left. eapply xspec_mono.
           ++ apply (@x_grow_spec V chk (inner * cur) (inner * (m - cur)) v outer b1 vs
                      (repeat LN (length b1 - (length vs + inner * (m - cur) * outer))) n).
              ** apply (@holds_split V false perm NZ b1 vs (inner * (m - cur) * outer) H1). rewrite L1. nia.
              ** lia.
           ++ intros n' b' X. exact X.
           ++ intros w t (-> & Ln & LT & p & s & Mt & Fp & Lp). split; auto. split; [lia|]. split; [reflexivity|].
              rewrite (t_dtor_eq _ _ _ _ (t_size_shape a _ t)). cbn [left_shape t_buf].
              rewrite (@free_broken V chk BMalloc t p s (prod (upd (a_dims a) (a_rix a) m)) Mt Fp); auto. rewrite LT, L1. nia.
        -- intros n' b' (-> & E2). rewrite E2 in Ea'. cbn [bind] in Ea'. cbn [xspec]. split; [lia|]. congruence.
      * apply Nat.ltb_ge in CM. rewrite Ea. cbn [xlift xspec]. split; [|auto].
        assert (prod (upd (a_dims a) (a_rix a) m) <= length vs); [|lia].
        rewrite SU, LV, SP. apply Nat.mul_le_mono_l, Nat.mul_le_mono_r. exact CM.
Qed.

Lemma x_set_dims_ok n ps : forall dims dims', set_dims dims ps = Ok dims' -> x_set_dims n dims ps = XOk n dims'.
Proof.
  induction ps as [|[i d] ps IH]; intros dims dims' X; cbn in *; [congruence|].
  destruct (d <? 0)%Z; [discriminate|]. cbn in X. auto.
Qed.

Lemma x_set_spec a vs idx v n : arr_ok a vs -> valid_index (a_dims a) idx ->
  xspec (x_set chk false perm n a idx v)
    (fun n' a' => n = n' + 1 /\ set_ chk false perm a idx v = Ok a')
    (fun w t => w = Element /\ n = 0 /\ t = as_left a).
Proof.
  intros A I. destruct (@set_valid V chk false perm P NZ a vs idx v A I) as (a' & E & _).
  unfold x_set. unfold set_ in *.
  destruct (slice_call chk (toSlice perm a) idx) as [k| |]; try discriminate. cbn [xlift xbind bind] in *.
  destruct (to_ix k) as [i| |]; try discriminate. cbn [xlift xbind bind] in *.
  unfold x_assign. destruct n as [|n].
  - cbn. auto.
  - destruct (assign false (a_buf a) i v); try discriminate. cbn in *. split; [lia|auto].
Qed.

Lemma x_nstep_spec c a vs dims' r' n : arr_ok a vs -> static_ok NDIM c ->
  extents c (a_dims a, a_rix a) = Some (dims', r') ->
  xspec (x_nstep chk false BMalloc perm dflt n c a)
    (fun n' a' => n = n' + ncost c (a_dims a) dims' /\ nstep chk false BMalloc perm dflt c a = Ok a')
    (fun w t => w = Element /\ n < ncost c (a_dims a) dims' /\
       match c with
       | NSet _ _ => t = as_left a
       | _ => t_dims t = map Z.of_nat dims' /\ t_dtor chk false BMalloc t = Fault FDestroy
       end).
Proof.
  intros A SO X. pose proof A as (L & S & R & LV & H).
  destruct (@nstep_ok V chk false BMalloc perm dflt P NZ c a vs dims' r' eq_refl A SO X) as (af & Ef & (vsf & Af) & Df & Rf).
  pose proof Af as (_ & _ & _ & Lvf & _).
  assert (RDD : forall m v, (0 <= m)%Z -> dims' = upd (a_dims a) (a_rix a) (Z.to_nat m) ->
    xspec (x_resizeDefaultDimension chk false BMalloc perm n a m v)
      (fun n' a' => n = n' + (prod dims' - prod (a_dims a)) /\ resizeDefaultDimension chk false BMalloc perm a m v = Ok a')
      (fun w t => w = Element /\ n < prod dims' - prod (a_dims a) /\
         t_dims t = map Z.of_nat dims' /\ t_dtor chk false BMalloc t = Fault FDestroy)).
  { intros m v Hm ->. rewrite <- LV. pose proof (@x_rdd_spec a vs (Z.to_nat m) v n A) as Y.
    rewrite Z2Nat.id in Y by auto. exact Y. }
  assert (SHP : forall ps, set_dims (a_dims a) ps = Ok dims' ->
    xspec (x_reshape chk false BMalloc perm dflt n a ps)
      (fun n' a' => n = n' + (prod dims' - prod (a_dims a)) /\
         (dims <- set_dims (a_dims a) ps ;;
          b <- BufferManip.resize chk false BMalloc (a_buf a) (size a) (multiplyAll dims) dflt ;;
          Ok (set_shape perm a dims b)) = Ok a')
      (fun w t => w = Element /\ n < prod dims' - prod (a_dims a) /\
         t_dims t = map Z.of_nat dims' /\ t_dtor chk false BMalloc t = Fault FDestroy)).
  { intros ps E. unfold x_reshape. rewrite (x_set_dims_ok n _ _ E). cbn [xleft xbind]. rewrite E. cbn [bind].
    rewrite <- LV. apply x_shape_spec; auto. left; auto. }
  destruct c; cbn [x_nstep nstep ncost extents] in *.
  - unfold x_resize_dims, resize_dims in *.
    destruct (negb (length dims =? NDIM)); [discriminate|]. cbn [error_if xlift xbind bind] in *.
    apply SHP. destruct (set_dims (a_dims a) (combine (seq 0 NDIM) dims)) as [d| |] eqn:E; try discriminate. cbn [bind] in Ef.
    destruct (BufferManip.resize chk false BMalloc (a_buf a) (size a) (multiplyAll d) dflt); try discriminate.
    cbn in Ef. injection Ef as <-. cbn in Df. congruence.
  - unfold x_resizeDimension, resizeDimension in *. apply SHP.
    destruct (set_dims (a_dims a) pairs) as [d| |] eqn:E; try discriminate. cbn [bind] in Ef.
    destruct (BufferManip.resize chk false BMalloc (a_buf a) (size a) (multiplyAll d) dflt); try discriminate.
    cbn in Ef. injection Ef as <-. cbn in Df. congruence.
  - destruct (Z.leb_spec 0 n0); [|discriminate]. injection X as <- <-. apply RDD; auto.
    unfold set_ext. cbn. symmetry. apply upd_firstn. lia.
  - destruct (Z.leb_spec 0 n0); [|discriminate]. injection X as <- <-. apply RDD; auto.
    unfold set_ext. cbn. symmetry. apply upd_firstn. lia.
  - rewrite Ef. cbn [xlift xspec]. split; [|auto]. injection X as <- <-.
    replace (prod (set_ext (a_dims a) (a_rix a, 0%Z))) with 0; [lia|]. symmetry. apply prod_zero. unfold set_ext. cbn.
    apply in_or_app. right. simpl. auto.
  - rewrite Ef. cbn [xlift xspec]. split; [|auto].
    destruct ((0 <=? i)%Z && (i <? Z.of_nat (length (a_dims a)))%Z)%bool; [|discriminate]. injection X as <- <-. lia.
  - rewrite Ef. cbn [xlift xspec]. split; [|auto]. injection X as <- <-. lia.
  - destruct (inside (a_dims a) idx) eqn:I; [|discriminate]. injection X as <- <-. apply inside_valid in I.
    eapply xspec_mono; [apply (@x_set_spec a vs idx v n A I)| |].
    + intros n' a' Y. exact Y.
    + intros w t (-> & -> & ->). auto.
Qed.

End XA.
