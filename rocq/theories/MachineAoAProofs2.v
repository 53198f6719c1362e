(** Exactly when machine arithmetic overflows in a member of ArrayOfArrays. *)
From Coq Require Import List Arith ZArith Lia Bool.
From Verif Require Import Base BaseProofs Mem MemProofs ArrayManipProofs BufferManip BufferManipProofs AoA AoASpec AoALayout AoAProofs AoAProofs2 AoAProofs3 AoAProofs4 MachineAoA MachineAoASpec MachineAoAProofs MachineAoAGen.
From Verif Require ArrayManip.
Import ListNotations.
Set Implicit Arguments.
Unset Strict Implicit.

Section Exact.
Variable V W : Type.
Variable hi : nat.
Variable chk tv tw : bool.
Variable fw : V -> W.
Variable dflt : V.
Notation kind := BMalloc.
Notation aoa := (aoa V W).
Notation row := (list V * nat)%type.
Notation rows := (list row).
Notation idv := (fun v : V => v).
Notation vok := (@vok V V W idv fw tv tw false).
Notation aok := (@aok V V W idv fw tv tw false).
Notation pok := (@pok V V W idv fw tv tw false).
Notation iok := (@iok V V W).
Notation arep := (@arep V W tv tw fw).
Notation wid := (@wid V).
Implicit Types a : aoa.
Implicit Types L A B T : rows.

Section Row.
Variable A B : rows.
Variable r : list V.
Variable k : nat.
Notation L := (A ++ (r, k) :: B).
Hypothesis rows_ok : length L + 1 <= hi.
Hypothesis total_ok : total L <= hi.

Definition grown_total inc := total A + grown (length r) (length r + k) inc + total B.
Lemma m_grow_eq a inc : aok a L -> grown_total inc <= hi ->
  m_dynamicallyGrowArray hi chk tv tw false kind a (length A) inc = dynamicallyGrowArray chk tv tw false kind a (length A) inc.
Proof.
  intros H C. pose proof H as [I E]. pose proof (total_mid A B r k) as TM. unfold m_dynamicallyGrowArray, dynamicallyGrowArray.
  unfold grown_total, grown in C.
  rewrite (row_size chk I). cbn [bind].
  assert (length r + inc <= hi) by (destruct (Nat.ltb_spec (length r + k) (length r + inc)); lia).
  rewrite fit_ok by auto. cbn [bind].
  rewrite m_cap_eq by (rewrite app_length in rows_ok; simpl in rows_ok; lia).
  rewrite (capacityOf_at chk I (row_nth A (r, k) B)). cbn [bind]. unfold AoALayout.wid. cbn [fst snd].
  destruct (Nat.ltb_spec (length r + k) (length r + inc)); auto.
  rewrite fit_ok by lia. cbn [bind]. eapply m_setcap_eq; eauto.
Qed.
Lemma m_grow_over a inc : aok a L -> hi < grown_total inc ->
  m_dynamicallyGrowArray hi chk tv tw false kind a (length A) inc = Fault FOverflow.
Proof.
  intros H C. pose proof H as [I E]. pose proof (total_mid A B r k) as TM. unfold m_dynamicallyGrowArray.
  unfold grown_total, grown in C.
  rewrite (row_size chk I). cbn [bind].
  destruct (Nat.leb_spec (length r + inc) hi) as [F|F]; [rewrite fit_ok by auto|rewrite fit_bad by auto; reflexivity].
  cbn [bind].
  rewrite m_cap_eq by (rewrite app_length in rows_ok; simpl in rows_ok; lia).
  rewrite (capacityOf_at chk I (row_nth A (r, k) B)). cbn [bind]. unfold AoALayout.wid. cbn [fst snd].
  destruct (Nat.ltb_spec (length r + k) (length r + inc)); [|lia].
  destruct (Nat.leb_spec (2 * (length r + inc)) hi) as [F2|F2]; [rewrite fit_ok by auto|rewrite fit_bad by auto; reflexivity].
  cbn [bind]. eapply m_setcap_over; eauto.
Qed.

Lemma m_ccap_eq a inc : iok a L -> length r + inc <= hi ->
  m_check_capacity hi chk a (length A) inc = check_capacity chk a (length A) inc.
Proof.
  intros I C. unfold m_check_capacity, check_capacity. destruct chk; auto.
  destruct (sizeOf_at true I (row_nth A (r, k) B)). cbn [fst]. pose proof (row_size true I) as S. rewrite S. cbn [bind].
  rewrite fit_ok by auto. cbn [bind]. unfold m_capacityOfArray, capacityOfArray.
  rewrite app_length in rows_ok. simpl in rows_ok. rewrite fit_ok by lia. reflexivity.
Qed.
Lemma m_vback_eq a v : iok a L -> length r + 1 <= hi -> m_v_emplaceBack hi chk tv a (length A) v = v_emplaceBack chk tv a (length A) v.
Proof.
  intros I C. unfold m_v_emplaceBack, v_emplaceBack. rewrite m_ccap_eq by auto. rewrite (row_size chk I). cbn [bind].
  rewrite fit_ok by auto. reflexivity.
Qed.
Lemma append_loop_count t vs : forall (b b' : buf V) p s i n, ArrayManip.append_loop t b p s i vs = Ok (b', n) -> n = i + length vs.
Proof.
  induction vs as [|v vs IH]; intros b b' p s i n; cbn [ArrayManip.append_loop]; [intros E; injection E as <- <-; simpl; lia|].
  destruct (construct t b (p + s + i) v) as [b1| |]; try discriminate. cbn [bind]. intros E. apply IH in E. simpl. lia.
Qed.
Lemma m_vappend_eq a vs : iok a L -> length r + length vs <= hi ->
  m_v_appendToArray hi chk tv a (length A) vs = v_appendToArray chk tv a (length A) vs.
Proof.
  intros I C. unfold m_v_appendToArray, v_appendToArray. rewrite (row_size chk I).
  destruct (check_array chk a (length A)); cbn [bind]; auto. destruct (offset a (length A)); cbn [bind]; auto.
  destruct (ArrayManip.append tv (vals a) _ (length r) vs) as [[b n]| |] eqn:E; cbn [bind]; auto.
  unfold ArrayManip.append in E. apply append_loop_count in E. simpl in E. subst n.
  rewrite fit_ok by lia. cbn [bind]. rewrite m_ccap_eq; auto. rewrite fit_ok by lia. reflexivity.
Qed.
Lemma m_vemplace_eq a j v : iok a L -> length r + 1 <= hi -> m_v_emplace hi chk tv a (length A) j v = v_emplace chk tv a (length A) j v.
Proof.
  intros I C. unfold m_v_emplace, v_emplace. rewrite m_ccap_eq by auto. rewrite (row_size chk I). cbn [bind].
  rewrite fit_ok by auto. reflexivity.
Qed.
Lemma m_vinsert_eq a j vs : iok a L -> length r + length vs <= hi ->
  m_v_insertIntoArray hi chk tv a (length A) j vs = v_insertIntoArray chk tv a (length A) j vs.
Proof.
  intros I C. unfold m_v_insertIntoArray, v_insertIntoArray. rewrite (fit_ok (n := length vs)) by lia. cbn [bind].
  rewrite m_ccap_eq by auto. rewrite (row_size chk I). cbn [bind].
  rewrite fit_ok by auto. reflexivity.
Qed.
End Row.

(** ** The members which may grow one row *)
Section Grow.
Variable A B : rows.
Variable r : list V.
Variable k : nat.
Notation L := (A ++ (r, k) :: B).
Hypothesis rows_ok : length L + 1 <= hi.
Hypothesis total_ok : total L <= hi.
Notation gt inc := (grown_total A B r k inc).

Lemma grown_rows inc : gt inc <= hi ->
  let L' := A ++ (r, grown (length r) (length r + k) inc - length r) :: B in
  length L' + 1 <= hi /\ total L' <= hi /\ length r + inc <= hi.
Proof.
  intros H. pose proof (total_mid A B r (grown (length r) (length r + k) inc - length r)) as T. cbv zeta.
  unfold grown_total in H. pose proof (grown_ge2 (length r) k inc).
  split; [|split].
  - revert rows_ok. rewrite !app_length. simpl. auto.
  - rewrite T. lia.
  - lia.
Qed.

Notation choose c m f := (m = if c <=? hi then f else Fault FOverflow).
Lemma grow_then {X} a inc (m f : aoa -> outcome X) : aok a L ->
  (forall a1 k', aok a1 (A ++ (r, k') :: B) -> length (A ++ (r, k') :: B) + 1 <= hi -> total (A ++ (r, k') :: B) <= hi -> length r + inc <= hi -> m a1 = f a1) ->
  choose (gt inc) (bind (m_dynamicallyGrowArray hi chk tv tw false kind a (length A) inc) m)
                  (bind (dynamicallyGrowArray chk tv tw false kind a (length A) inc) f).
Proof.
  intros H G. destruct (Nat.leb_spec (gt inc) hi) as [C|C].
  - rewrite (m_grow_eq rows_ok total_ok H C). destruct (grow_ok chk inc H) as [(a1 & -> & H1)|[_ ->]]; cbn [bind]; auto.
    destruct (grown_rows C) as (R1 & R2 & R3). eapply G; eauto.
  - rewrite (m_grow_over rows_ok total_ok H C). reflexivity.
Qed.
Lemma m_back_exact a v : aok a L ->
  choose (gt 1) (m_emplaceBack hi chk tv tw false kind a (length A) v) (aoa_emplaceBack chk tv tw false kind a (length A) v).
Proof. intros H. apply (grow_then H). intros a1 k' [I1 _] R1 R2 R3. eapply m_vback_eq; eauto. Qed.
Lemma m_emplace_exact a j v : aok a L ->
  choose (gt 1) (m_emplace hi chk tv tw false kind a (length A) j v) (aoa_emplace chk tv tw false kind a (length A) j v).
Proof. intros H. apply (grow_then H). intros a1 k' [I1 _] R1 R2 R3. eapply m_vemplace_eq; eauto. Qed.
Lemma gt_ge inc : inc <= gt inc.
Proof. unfold grown_total. pose proof (grown_ge2 (length r) k inc). lia. Qed.
Lemma m_append_exact a vs : aok a L ->
  choose (gt (length vs)) (m_appendToArray hi chk tv tw false kind a (length A) vs) (aoa_appendToArray chk tv tw false kind a (length A) vs).
Proof.
  intros H. unfold m_appendToArray. destruct (Nat.leb_spec (length vs) hi) as [C|C].
  - rewrite fit_ok by auto. cbn [bind]. apply (grow_then H). intros a1 k' [I1 _] R1 R2 R3. eapply m_vappend_eq; eauto.
  - rewrite fit_bad by auto. pose proof (gt_ge (length vs)). destruct (Nat.leb_spec (gt (length vs)) hi); [lia|reflexivity].
Qed.
Lemma m_insert_exact a j vs : aok a L ->
  choose (gt (length vs)) (m_insertIntoArray hi chk tv tw false kind a (length A) j vs) (aoa_insertIntoArray chk tv tw false kind a (length A) j vs).
Proof.
  intros H. unfold m_insertIntoArray. destruct (Nat.leb_spec (length vs) hi) as [C|C].
  - rewrite fit_ok by auto. cbn [bind]. apply (grow_then H). intros a1 k' [I1 _] R1 R2 R3. eapply m_vinsert_eq; eauto.
  - rewrite fit_bad by auto. pose proof (gt_ge (length vs)). destruct (Nat.leb_spec (gt (length vs)) hi); [lia|reflexivity].
Qed.
Lemma m_resizeArray_exact a n v : aok a L ->
  choose (total A + Nat.max (length r + k) n + total B) (m_resizeArray hi chk tv tw false kind a (length A) n v) (resizeArray chk tv tw false kind a (length A) n v).
Proof.
  intros H. pose proof H as [I E]. pose proof (total_mid A B r k) as TM. unfold m_resizeArray, resizeArray.
  rewrite (row_check chk I). cbn [bind]. rewrite m_cap_eq by (rewrite app_length in rows_ok; simpl in rows_ok; lia).
  rewrite (capacityOf_at chk I (row_nth A (r, k) B)). cbn [bind]. unfold AoALayout.wid. cbn [fst snd].
  destruct (Nat.ltb_spec (length r + k) n) as [Lt|Ge].
  - rewrite (Nat.max_r (length r + k) n) by lia. rewrite (m_setcap_exact chk rows_ok total_ok n H).
    destruct (total A + n + total B <=? hi); reflexivity.
  - rewrite (Nat.max_l (length r + k) n) by lia. destruct (Nat.leb_spec (total A + (length r + k) + total B) hi); [reflexivity|lia].
Qed.
Lemma m_set_eq a j v : aok a L -> j < length r -> m_aoa_set hi chk tv a (length A) j v = aoa_set chk tv a (length A) j v.
Proof.
  intros [I E] J. pose proof (total_mid A B r k) as TM. unfold m_aoa_set, aoa_set, m_slot, slot.
  rewrite (row_off I). destruct (check_array2 chk a (length A) j); cbn [bind]; auto. rewrite fit_ok; auto. rewrite flat_length. lia.
Qed.
End Grow.

Lemma sum_wid L : list_sum (map wid L) = total L.
Proof. symmetry. apply total_sum. Qed.
Lemma sum_put A x B c i : i = length A ->
  list_sum (put_at (map wid (A ++ x :: B)) i c) = total A + c + total B.
Proof.
  intros ->. rewrite map_app. simpl. rewrite (put_mid (l := map wid A)) by (rewrite map_length; auto).
  rewrite list_sum_app. simpl. rewrite !sum_wid. lia.
Qed.
Lemma choose_cast {X} x y (m f g : outcome X) : x = y -> f = g -> (m = if x <=? hi then f else Fault FOverflow) -> m = if y <=? hi then g else Fault FOverflow.
Proof. intros -> ->. auto. Qed.
Lemma choose_le {X} x (m f : outcome X) : x <= hi -> m = f -> m = if x <=? hi then f else Fault FOverflow.
Proof. intros H ->. destruct (Nat.leb_spec x hi); auto. lia. Qed.

Lemma step_exact c a M K M' : arep a M K -> rows_fit hi M = true -> caps_fit hi K = true -> arg_fits hi c = true ->
  vec_step dflt c M = Some M' -> rows_fit hi M' = true ->
  m_astep hi chk tv tw false kind dflt c a =
  if caps_fit hi (cap_step c M K) then astep chk tv tw false kind dflt c a else Fault FOverflow.
Proof.
  unfold rows_fit, caps_fit. intros (L & H & <- & <-) R T Ha Hv R'. apply Nat.leb_le in R, T, R'.
  rewrite map_length in R. rewrite sum_wid in T. pose proof H as [I E].
  destruct c as [n cap|caps|n|n| |n|vs|i vs|i|i v|i vs|i j v|i j vs|i j n|i n v|i|i c|i j v];
    cbn [m_astep AoA.astep cap_step]; cbn [vec_step] in Hv.
  - injection Hv as <-. eapply choose_cast; [|reflexivity|eapply m_resize_exact; [exact (aok_pok H)|..]; auto].
    + rewrite <- sum_wid. f_equal. unfold resized, resized_to. rewrite map_app, map_length, firstn_map. f_equal.
      clear. induction (n - length L) as [|m IH]; simpl; auto. rewrite IH. reflexivity.
    + revert R'. unfold resized_to. rewrite app_length, firstn_length, repeat_length, map_length. lia.
  - injection Hv as <-. rewrite map_length in R'.
    destruct (Nat.leb_spec (list_sum caps) hi); [eapply m_caps_eq; eauto|eapply m_caps_over; eauto].
  - apply choose_le; [rewrite sum_wid; auto|]. apply Nat.leb_le in Ha. eapply m_reserve_eq; eauto.
  - apply choose_le; [rewrite sum_wid; auto|reflexivity].
  - apply choose_le; [|eapply m_compress_eq; eauto; lia].
    rewrite map_map. assert (X : list_sum (map (fun x => length (fst x)) L) = total (closed L)).
    { clear. induction L as [|[q j] L IH]; simpl; auto. rewrite IH. unfold AoALayout.wid. simpl. lia. }
    pose proof (total_closed L). change (fun x : row => length (fst x)) with (fun x : row => @length V (fst x)) in X. lia.
  - injection Hv as <-. rewrite app_length, map_length in R'. simpl in R'.
    unfold m_appendArray, appendArray. rewrite (m_push_eq chk H) by auto.
    destruct (push_ok chk H) as (a1 & -> & H1). cbn [bind].
    pose proof H1 as [(N1 & _ & _) _]. rewrite N1.
    replace (length (L ++ [([], 0)]) - 1) with (length L) by len.
    eapply choose_cast; [|reflexivity|apply (@m_resizeArray_exact L [] [] 0)]; auto.
    + simpl. rewrite list_sum_app, sum_wid. simpl. lia.
    + rewrite app_length. simpl. lia.
    + rewrite total_app. simpl. unfold AoALayout.wid. simpl. lia.
  - injection Hv as <-. rewrite app_length, map_length in R'. simpl in R'.
    unfold m_appendArrayFrom, appendArrayFrom. rewrite (m_push_eq chk H) by auto.
    destruct (push_ok chk H) as (a1 & -> & H1). cbn [bind].
    pose proof H1 as [(N1 & _ & _) _]. rewrite N1.
    replace (length (L ++ [([], 0)]) - 1) with (length L) by len.
    eapply choose_cast; [|reflexivity|apply (@m_append_exact L [] [] 0)]; auto.
    + unfold grown_total, grown. simpl. rewrite list_sum_app, sum_wid. simpl. destruct (Nat.ltb_spec 0 (length vs)); lia.
    + rewrite app_length. simpl. lia.
    + rewrite total_app. simpl. unfold AoALayout.wid. simpl. lia.
  - rewrite map_length in Hv. destruct (Nat.leb_spec i (length L)) as [Hi|Hi]; [|discriminate]. injection Hv as <-.
    destruct (split_le Hi) as (A & B & -> & <-). revert R'. rewrite map_app, ins_mid by (rewrite map_length; auto).
    rewrite app_length. simpl. rewrite !map_length. intros R'. rewrite app_length in R.
    unfold m_insertArray, insertArray. rewrite (m_open_eq chk H Hi) by (rewrite app_length; lia).
    destruct (open_ok chk H eq_refl) as (a1 & -> & H1). cbn [bind].
    eapply choose_cast; [|reflexivity|apply (@m_append_exact A B [] 0)]; auto.
    + unfold grown_total, grown. rewrite map_app, ins_mid by (rewrite map_length; auto). rewrite list_sum_app. simpl.
      rewrite !sum_wid. destruct (Nat.ltb_spec 0 (length vs)); lia.
    + rewrite app_length. simpl. lia.
    + rewrite total_app in *. simpl. unfold AoALayout.wid. simpl. lia.
  - rewrite map_length in Hv. destruct (Nat.ltb_spec i (length L)) as [Hi|Hi]; [|discriminate]. injection Hv as <-.
    destruct (split_lt Hi) as (A & [r k] & B & -> & <-).
    apply choose_le; [|eapply m_erase_eq; eauto].
    rewrite map_app. simpl. rewrite rem_mid by (rewrite map_length; auto). rewrite list_sum_app, !sum_wid.
    rewrite total_mid in T. lia.
  - unfold on_row in Hv. destruct (nth_error (map fst L) i) as [r|] eqn:Er; [|discriminate].
    destruct (row_at Er) as (A & k & B & -> & <-). unfold cap_grow. rewrite sum_put by auto.
    rewrite !map_app. simpl. rewrite !nth_mid by (rewrite map_length; auto). apply m_back_exact; auto.
  - unfold on_row in Hv. destruct (nth_error (map fst L) i) as [r|] eqn:Er; [|discriminate].
    destruct (row_at Er) as (A & k & B & -> & <-). unfold cap_grow. rewrite sum_put by auto.
    rewrite !map_app. simpl. rewrite !nth_mid by (rewrite map_length; auto). apply m_append_exact; auto.
  - unfold on_row in Hv. destruct (nth_error (map fst L) i) as [r|] eqn:Er; [|discriminate].
    destruct (row_at Er) as (A & k & B & -> & <-). unfold cap_grow. rewrite sum_put by auto.
    rewrite !map_app. simpl. rewrite !nth_mid by (rewrite map_length; auto). apply m_emplace_exact; auto.
  - unfold on_row in Hv. destruct (nth_error (map fst L) i) as [r|] eqn:Er; [|discriminate].
    destruct (row_at Er) as (A & k & B & -> & <-). unfold cap_grow. rewrite sum_put by auto.
    rewrite !map_app. simpl. rewrite !nth_mid by (rewrite map_length; auto). apply m_insert_exact; auto.
  - apply choose_le; [rewrite sum_wid; auto|reflexivity].
  - unfold on_row in Hv. destruct (nth_error (map fst L) i) as [r|] eqn:Er; [|discriminate].
    destruct (row_at Er) as (A & k & B & -> & <-). rewrite sum_put by auto.
    rewrite !map_app. simpl. rewrite !nth_mid by (rewrite map_length; auto). apply m_resizeArray_exact; auto.
  - unfold on_row in Hv. destruct (nth_error (map fst L) i) as [r|] eqn:Er; [|discriminate].
    destruct (row_at Er) as (A & k & B & -> & <-).
    eapply choose_cast; [|reflexivity|apply m_resizeArray_exact; eauto]. rewrite sum_wid, total_mid. lia.
  - unfold on_row in Hv. destruct (nth_error (map fst L) i) as [r|] eqn:Er; [|discriminate].
    destruct (row_at Er) as (A & k & B & -> & <-). rewrite sum_put by auto. eapply m_setcap_exact; eauto.
  - unfold on_row in Hv. destruct (nth_error (map fst L) i) as [r|] eqn:Er; [|discriminate].
    destruct (row_at Er) as (A & k & B & -> & <-). destruct (Nat.ltb_spec j (length r)); [|discriminate].
    apply choose_le; [rewrite sum_wid; auto|]. eapply m_set_eq; eauto.
Qed.

Lemma run_exact h : forall a M K, arep a M K -> rows_fit hi M = true -> caps_fit hi K = true ->
  vec_run dflt h M <> None -> rows_stay dflt hi h M = true -> (tv || always_full dflt h M K)%bool = true ->
  m_arun hi chk tv tw false kind dflt h a =
  if caps_stay dflt hi h M K then arun chk tv tw false kind dflt h a else Fault FOverflow.
Proof.
  induction h as [|c h IH]; intros a M K H R T Hv Rs F; cbn [m_arun AoA.arun caps_stay]; auto.
  cbn [vec_run rows_stay always_full] in *. destruct (vec_step dflt c M) as [M1|] eqn:E1; [|congruence].
  apply andb_prop in Rs. destruct Rs as [Rs Rh]. apply andb_prop in Rs. destruct Rs as [Ra R1].
  rewrite (step_exact H R T Ra E1 R1). destruct (caps_fit hi (cap_step c M K)) eqn:T1; [|reflexivity].
  pose proof (step_ok chk dflt c H) as S. rewrite E1 in S.
  assert (F1 : (tv || full M K)%bool = true /\ (tv || always_full dflt h M1 (cap_step c M K))%bool = true).
  { destruct tv; auto. simpl in *. apply andb_prop in F. auto. }
  destruct F1 as [F1 F2]. destruct S as [(a1 & -> & H1)|[S _]]; [|congruence]. cbn [bind andb]. apply IH; auto.
Qed.

(** In range: also when an element type which is not trivial may fault. *)
Lemma run_eq h : forall a M K, arep a M K -> rows_fit hi M = true -> caps_fit hi K = true ->
  vec_run dflt h M <> None -> rows_stay dflt hi h M = true -> caps_stay dflt hi h M K = true ->
  m_arun hi chk tv tw false kind dflt h a = arun chk tv tw false kind dflt h a.
Proof.
  induction h as [|c h IH]; intros a M K H R T Hv Rs F; cbn [m_arun AoA.arun]; auto.
  cbn [vec_run rows_stay caps_stay] in *. destruct (vec_step dflt c M) as [M1|] eqn:E1; [|congruence].
  apply andb_prop in Rs. destruct Rs as [Rs Rh]. apply andb_prop in Rs. destruct Rs as [Ra R1].
  apply andb_prop in F. destruct F as [F1 F2].
  rewrite (step_exact H R T Ra E1 R1), F1.
  pose proof (step_ok chk dflt c H) as S. rewrite E1 in S.
  destruct S as [(a1 & -> & H1)|[_ ->]]; [|reflexivity]. cbn [bind]. eapply IH; eauto.
Qed.
End Exact.
