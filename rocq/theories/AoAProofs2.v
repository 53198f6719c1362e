(** resize, resizeFromCapacities, compress, free and the insertion and removal of whole arrays. *)
From Coq Require Import List Arith ZArith Lia Bool.
From Verif Require Import Base BaseProofs Mem MemProofs ArrayManipProofs BufferManip BufferManipProofs AoA AoALayout AoAProofs.
From Verif Require ArrayManip.
Import ListNotations.
Set Implicit Arguments.
Unset Strict Implicit.

Section AoAP2.
Variable P V W : Type.
Variable fv : P -> V.
Variable fw : P -> W.
Variable chk tv tw dual : bool.
Notation kind := BMalloc.
Notation aoa := (aoa V W).
Notation row := (list P * nat)%type.
Notation rows := (list row).
Notation allt := (allt tv tw dual).
Notation vok := (@vok P V W fv fw tv tw dual).
Notation aok := (@aok P V W fv fw tv tw dual).
Notation pok := (@pok P V W fv fw tv tw dual).
Notation iok := (@iok P V W).
Implicit Types a : aoa.
Implicit Types L A B T : rows.

Lemma holds_eq {X} (b : buf X) l l' : holds true b l -> l = l' -> holds true b l'.
Proof. intros H <-. exact H. Qed.

Lemma pok_iok a L : pok a L -> L <> [] -> iok a L.
Proof. intros (N & O & Z & E) H. destruct L; [congruence|]. repeat (split; auto). Qed.

Definition empties (caps : list nat) : rows := map (fun c => ([], c)) caps.

Lemma flat_empties {X} (g : P -> X) caps : flat g (empties caps) = repeat LN (total (empties caps)).
Proof.
  induction caps as [|c caps IH]; simpl; auto. change (flat_map (cells g) (empties caps)) with (flat g (empties caps)).
  rewrite IH. unfold cells, wid. simpl. rewrite <- repeat_app_add. auto.
Qed.

Lemma sizes_empties caps : sizes (empties caps) = repeat 0 (length caps).
Proof. induction caps; simpl; auto. f_equal. auto. Qed.

(** ** resizeFromCapacities *)
Lemma scan_ok caps : forall a xs i acc,
  holds true (offs a) (xs ++ [acc]) -> i = length xs + 1 -> length xs + 1 + length caps <= length (offs a) ->
  oks (scan_into a i acc caps)
      (fun a' => exists o, a' = set_offs o a /\ holds true o (xs ++ offsets acc (empties caps))).
Proof.
  induction caps as [|c caps IH]; intros a xs i acc H -> C; cbn [scan_into].
  - apply oks_ok. exists (offs a). split; [destruct a; reflexivity|]. exact H.
  - unfold put_offset at 1. eapply oks_bind.
    + eapply oks_bind; [eapply assign_push; [exact H|len|simpl in C; lia]|]. intros o [Ho Lo].
      apply oks_ok with (P := fun a' => exists o, a' = set_offs o a /\ holds true o ((xs ++ [acc]) ++ [acc + c]) /\ length o = length (offs a)).
      eauto.
    + intros a1 (o & -> & Ho & Lo). eapply oks_mono.
      * eapply IH with (xs := xs ++ [acc]); [exact Ho|len|]. simpl in *. rewrite Lo. len.
      * intros a2 (o2 & -> & H2). exists o2. split; [reflexivity|]. rewrite <- app_assoc in H2.
        eapply holds_eq; [exact H2|]. simpl. reflexivity.
Qed.

Lemma resizeFromCapacities_ok a L caps : pok a L ->
  oks (resizeFromCapacities chk tv tw dual kind a caps) (fun a' => aok a' (empties caps)).
Proof.
  intros H. pose proof H as (N & O & Z & E). unfold resizeFromCapacities.
  eapply oks_bind; [apply (@destroyAll_ok P V W fv fw chk tv tw dual a L N (pok_iok H) E)|].
  intros a1 (N1 & O1 & Z1 & E1). rewrite N1, O1, Z1, N.
  eapply oks_bind.
  { rewrite <- (sizes_length L). apply (BufferManipProofs.reserve_ok chk (kind := BMalloc) (n := length caps) Z). left; auto. }
  intros s [Hs Ls].
  eapply oks_bind.
  { apply (@push_zeros (length caps) s [] 0); auto; [|simpl; lia]. apply holds_forget with (ys := sizes L). exact Hs. }
  intros s2 [Hs2 _]. simpl in Hs2.
  eapply oks_bind.
  { instantiate (1 := fun o => holds true o [] /\ length caps + 1 <= length o).
    replace (if length L =? 0 then 0 else length L + 1) with (length (match L with [] => [] | _ => offsets 0 L end))
      by (destruct L; simpl; auto; rewrite offsets_length; lia).
    eapply oks_mono; [apply (BufferManipProofs.reserve_ok chk (kind := BMalloc) (n := length caps + 1) O); left; auto|].
    intros o [Ho Lo]. split; [|lia]. eapply holds_forget with (xs := []). exact Ho. }
  intros o [Ho Lo]. unfold put_offset at 1. cbn [offs set_szs set_offs].
  rewrite bind_assoc.
  eapply oks_bind; [eapply assign_push with (xs := []); [exact Ho|reflexivity|lia]|]. intros o2 [Ho2 Lo2].
  cbn [bind]. simpl in Ho2.
  eapply oks_bind; [apply scan_ok with (xs := []); simpl; auto; lia|].
  intros a3 (o3 & -> & Ho3). simpl in Ho3.
  cbn [numArrays set_num set_offs]. unfold offset at 1. cbn [offs set_num set_offs].
  assert (Le : length (empties caps) = length caps) by (unfold empties; len).
  rewrite (holds_rd (length caps) (v := total (empties caps)) Ho3)
    by (rewrite <- Le, offsets_nth, firstn_all by lia; reflexivity).
  cbn [bind].
  eapply oks_mono; [eapply each_oks with (L := []) (L' := empties caps)|].
  - exact E1.
  - intros X g t b [k M]. simpl in M. eapply oks_mono; [apply reserve_empty; exact M|].
    intros b' M'. exists (Nat.max k (total (empties caps)) - total (empties caps)).
    rewrite flat_empties, <- repeat_app_add. eapply mem_cast; [exact M'|]. f_equal. lia.
  - intros a' (E2 & E3 & E4 & E5). split; auto. split; [|split].
    + rewrite E2, Le. reflexivity.
    + rewrite E3. exact Ho3.
    + rewrite E4, sizes_empties. exact Hs2.
Qed.

(** ** resize *)
Definition resized L (n cap : nat) : rows := firstn n L ++ repeat ([], cap) (n - length L).

Lemma offsets_repeat o m cap : offsets o (repeat (@nil P, cap) m) = o :: map (fun i => o + i * cap) (seq 1 m).
Proof.
  revert o; induction m as [|m IH]; intros o; auto.
  cbn [repeat offsets]. rewrite IH. unfold wid. cbn [fst snd length]. f_equal. rewrite <- cons_seq. simpl map.
  f_equal; [lia|]. rewrite <- (seq_shift m 1), map_map. apply map_ext. intros. simpl. lia.
Qed.

Lemma total_repeat m cap : total (repeat (@nil P, cap) m) = m * cap.
Proof. induction m; simpl; auto. Qed.
Lemma sizes_repeat m cap : sizes (repeat (@nil P, cap) m) = repeat 0 m.
Proof. induction m; simpl; auto. f_equal; auto. Qed.
Lemma flat_repeat {X} (g : P -> X) m cap : flat g (repeat ([], cap) m) = repeat LN (m * cap).
Proof. induction m; simpl; auto. rewrite IHm. unfold cells. simpl. rewrite <- repeat_app_add. auto. Qed.

Lemma offs_set_loop (h : nat -> nat) m : forall ys a xs i j,
  holds true (offs a) (xs ++ ys) -> length ys = m -> numArrays a + j = length xs -> j = i ->
  oks (for_up m (fun i a => put_offset a (numArrays a + i) (h i)) i a)
      (fun a' => exists o, a' = set_offs o a /\ holds true o (xs ++ map h (seq j m))).
Proof.
  induction m as [|m IH]; intros ys a xs i j H Ly Lx ->; cbn [for_up].
  - apply oks_ok. exists (offs a). split; [destruct a; reflexivity|]. destruct ys; [|discriminate]. exact H.
  - destruct ys as [|y ys]; [discriminate|]. unfold put_offset at 1.
    eapply oks_bind.
    + eapply oks_bind; [eapply assign_mid; [exact H|exact Lx]|]. intros o [Ho _].
      apply oks_ok with (P := fun a' => exists o, a' = set_offs o a /\ holds true o (xs ++ h i :: ys)). eauto.
    + intros a1 (o & -> & Ho). eapply oks_mono.
      * eapply IH with (xs := xs ++ [h i]) (ys := ys) (j := i + 1); simpl.
        -- rewrite <- app_assoc. exact Ho.
        -- simpl in Ly. lia.
        -- len.
        -- reflexivity.
      * intros a2 (o2 & -> & H2). exists o2. split; [reflexivity|]. simpl. rewrite <- app_assoc in H2.
        rewrite Nat.add_1_r in H2. exact H2.
Qed.

Lemma firstn_offsets n L : n <= length L -> firstn (n + 1) (offsets 0 L) = offsets 0 (firstn n L).
Proof.
  intros H. rewrite <- (firstn_skipn n L) at 1. rewrite offsets_app, (offsets_last (firstn n L)).
  rewrite firstn_app, starts_length, firstn_length. rewrite firstn_all2 by (rewrite starts_length, firstn_length; lia).
  replace (n + 1 - Nat.min n (length L)) with 1 by lia.
  destruct (offsets_cons (0 + total (firstn n L)) (skipn n L)) as [l ->]. reflexivity.
Qed.

Lemma resize_ok a L n cap : pok a L ->
  okb (allt || nogap L) (resizeImpl chk tv tw dual kind a n cap) (fun a' => aok a' (resized L n cap)).
Proof.
  intros H. pose proof H as (N & O & Z & E). unfold resizeImpl. rewrite N.
  destruct (Nat.ltb_spec n (length L)) as [Lt|Ge].
  - left. assert (NL : L <> []) by (destruct L; simpl in *; [lia|discriminate]).
    pose proof (pok_iok H NL) as I.
    destruct (Nat.eqb_spec (length L) 0) as [?|_]; [lia|].
    unfold resized. replace (n - length L) with 0 by lia. simpl repeat. rewrite app_nil_r.
    set (A := firstn n L). set (T := skipn n L).
    assert (EL : L = A ++ T) by (symmetry; apply firstn_skipn).
    assert (LA : length A = n) by (unfold A; rewrite firstn_length; lia).
    replace (match L with [] => [] | _ => offsets 0 L end) with (offsets 0 L) in O by (destruct L; [congruence|auto]).
    eapply oks_bind.
    { rewrite <- LA, EL at 1. replace (length (A ++ T)) with (length A + length T) by len.
      apply destroyValues_ok; rewrite <- EL; eauto. }
    intros a1 (N1 & O1 & Z1 & E1). rewrite O1, Z1, N1, N.
    eapply oks_bind.
    { rewrite <- (offsets_length L 0). apply (BufferManipProofs.resize_ok chk (kind := BMalloc) (n := n + 1) _ O). left; auto. }
    intros o [Ho _].
    eapply oks_bind.
    { rewrite <- (sizes_length L). apply (BufferManipProofs.resize_ok chk (kind := BMalloc) (n := n) _ Z). left; auto. }
    intros z [Hz _]. apply oks_ok. split; [split; [|split]|exact E1]; simpl.
    + auto.
    + eapply holds_eq; [exact Ho|]. unfold list_resize. rewrite firstn_offsets by lia.
      rewrite offsets_length. replace (n + 1 - (length L + 1)) with 0 by lia. simpl. apply app_nil_r.
    + eapply holds_eq; [exact Hz|]. unfold list_resize. rewrite sizes_length. replace (n - length L) with 0 by lia.
      simpl. rewrite app_nil_r. unfold sizes, A. apply firstn_map.
  - set (m := n - length L).
    assert (G : (if length L =? 0 then Ok 0 else offset a (length L)) = Ok (total L)).
    { destruct L as [|r L']; [reflexivity|]. change (length (r :: L') =? 0) with false. cbv iota.
      rewrite (@offset_at P V W a (r :: L')), firstn_all; auto. apply pok_iok; auto. discriminate. }
    rewrite G. cbn [bind].
    eapply okb_bind; [left|].
    { replace (if length L =? 0 then 0 else length L + 1) with (length (match L with [] => [] | _ => offsets 0 L end))
        by (destruct L; simpl; auto; rewrite offsets_length; lia).
      apply (BufferManipProofs.resize_ok chk (kind := BMalloc) (n := n + 1) _ O). left; auto. }
    intros o [Ho _].
    eapply okb_bind; [left|].
    { rewrite <- (sizes_length L). apply (BufferManipProofs.resize_ok chk (kind := BMalloc) (n := n) _ Z). left; auto. }
    intros z [Hz _].
    assert (Ho' : holds true o (offsets 0 L ++ repeat (total L) m)).
    { eapply holds_eq; [exact Ho|]. unfold list_resize. destruct L as [|r L'].
      - simpl. unfold m. simpl. rewrite !Nat.sub_0_r, Nat.add_1_r. reflexivity.
      - rewrite offsets_length. rewrite firstn_all2 by (rewrite offsets_length; lia). f_equal. f_equal. unfold m. lia. }
    assert (Hz' : holds true z (sizes (resized L n cap))).
    { eapply holds_eq; [exact Hz|]. unfold list_resize, resized. rewrite sizes_app, sizes_repeat, sizes_length.
      f_equal. unfold sizes. symmetry. rewrite firstn_map. auto. }
    assert (LR : length (resized L n cap) = n) by (unfold resized; rewrite app_length, firstn_length, repeat_length; lia).
    assert (Rn : resized L n cap = L ++ repeat ([], cap) m) by (unfold resized; rewrite firstn_all2 by lia; reflexivity).
    destruct (Nat.ltb_spec 0 cap) as [Hc|Hc].
    + assert (Ho2 : oks (for_up (n - numArrays (set_szs z (set_offs o a)))
            (fun i a => put_offset a (numArrays a + i) (total L + i * cap)) 1 (set_szs z (set_offs o a)))
          (fun a' => exists o, a' = set_offs o (set_szs z (set_offs o a)) /\ holds true o (offsets 0 (resized L n cap)))).
      { simpl numArrays. rewrite N. fold m. eapply oks_mono.
        - eapply (@offs_set_loop (fun i => total L + i * cap)) with (xs := offsets 0 L) (ys := repeat (total L) m) (j := 1); simpl.
          + exact Ho'.
          + apply repeat_length.
          + rewrite offsets_length, N. reflexivity.
          + reflexivity.
        - intros a2 (o2 & -> & H2). exists o2. split; [reflexivity|]. eapply holds_eq; [exact H2|].
          rewrite Rn, offsets_app, offsets_last, offsets_repeat, <- app_assoc. reflexivity. }
      eapply okb_bind with (P := fun a2 => aok (set_num n a2) (resized L n cap)).
      * eapply okb_bind; [left; exact Ho2|]. intros a2 (o2 & -> & H2).
        unfold offset at 1. cbn [offs set_offs].
        rewrite (holds_rd n (v := total L + m * cap) H2).
        2:{ rewrite offsets_nth by lia. rewrite firstn_all2 by lia. rewrite Rn, total_app, total_repeat. reflexivity. }
        cbn [bind]. unfold offset at 1. cbn [offs set_offs]. simpl numArrays.
        rewrite N. rewrite (holds_rd (length L) (v := total L) H2).
        2:{ rewrite offsets_nth by lia. rewrite Rn, firstn_app_exact by auto. reflexivity. }
        cbn [bind].
        eapply okb_mono; [eapply each_ok with (L := L) (L' := resized L n cap)|].
        -- exact E.
        -- intros X g t b Hb. eapply okb_mono; [apply reserve_lay; exact Hb|]. intros b' [[k M] Lb].
           pose proof (mem_length M) as EM. rewrite app_length, flat_length, repeat_length in EM.
           exists (k - m * cap). rewrite Rn, flat_app, flat_repeat, <- app_assoc, <- repeat_app_add.
           eapply mem_cast; [exact M|]. do 2 f_equal. lia.
        -- intros a' (X1 & X2 & X3 & X4). simpl in X2, X3. split; [split; [|split]|exact X4]; simpl.
           ++ auto.
           ++ rewrite X2. exact H2.
           ++ rewrite X3. exact Hz'.
      * intros a2 A2. left. apply oks_ok. exact A2.
    + left. cbn [bind]. apply oks_ok. assert (cap = 0) by lia. subst cap.
      split; [split; [|split]|]; simpl.
      * auto.
      * eapply holds_eq; [exact Ho'|]. rewrite Rn, offsets_app, offsets_last, offsets_repeat, <- app_assoc. simpl. f_equal. f_equal.
        clear. generalize 1. induction m; simpl; intros; auto. f_equal; auto. lia.
      * exact Hz'.
      * assert (G2 : forall (X : Type) (g : P -> X) t b, lay g t b L -> lay g t b (resized L n 0)).
        { intros X g t b [k M]. exists k. rewrite Rn, flat_app, flat_repeat, Nat.mul_0_r. simpl. rewrite app_nil_r. exact M. }
        destruct E as [E1 E2]. split; simpl; auto.
Qed.

(** ** compress *)
Definition closed L : rows := map (fun r => (fst r, 0)) L.
Fixpoint squeeze (r : list P) (k : nat) T : rows :=
  match T with [] => [(r, k)] | x :: T' => (r, 0) :: squeeze (fst x) (snd x + k) T' end.

Lemma squeeze_last r k T : exists D x j, squeeze r k T = D ++ [(x, j)] /\ length D = length T /\
  D ++ [(x, 0)] = closed ((r, k) :: T).
Proof.
  revert r k; induction T as [|[r' k'] T IH]; intros r k; simpl.
  - exists [], r, k. auto.
  - destruct (IH r' (k' + k)) as (D & x & j & E & L & C). exists ((r, 0) :: D), x, j.
    rewrite E. simpl. rewrite C. auto.
Qed.

(** Moving a row down over the free slots of its predecessor. *)
Lemma lay_pull {X} (g : P -> X) t b A r k r' k' T :
  lay g t b (A ++ (r, k) :: (r', k') :: T) ->
  oks (ArrayManip.uninitializedShiftDown t b (total A + length r + k) (length r') k)
      (fun b' => lay g t b' (A ++ (r, 0) :: (r', k' + k) :: T)).
Proof.
  intros [j M]. eapply oks_mono.
  - eapply uninitializedShiftDown_ok with (p := flat g A ++ map LV (map g r)) (vs := map g r') (s := repeat LN k' ++ flat g T ++ repeat LN j).
    + eapply mem_cast; [exact M|]. rewrite !flat_app. simpl. unfold cells at 1 2. simpl. lapp. auto.
    + rewrite app_length, flat_length, !map_length. auto.
    + rewrite map_length. auto.
  - intros b' M'. exists j. eapply mem_cast; [exact M'|]. rewrite !flat_app. simpl. unfold cells. simpl. lapp.
    do 3 f_equal. rewrite app_assoc, <- repeat_app_add. do 2 f_equal. lia.
Qed.

Lemma compress_loop T : forall a A r k i, aok a (A ++ (r, k) :: T) -> i = length A ->
  oks (for_up (length T) (fun i a =>
          nextOffset <- offset a (i + 1) ;;
          o <- offset a i ;; s <- sizeOfArray chk a i ;;
          d <- sub_ix nextOffset o ;; shiftAmount <- sub_ix d s ;;
          sizeOfNextArray <- sizeOfArray chk a (i + 1) ;;
          a1 <- each tv tw dual (fun (X : Type) t (b : buf X) => ArrayManip.uninitializedShiftDown t b nextOffset sizeOfNextArray shiftAmount) a ;;
          newOffset <- sub_ix nextOffset shiftAmount ;;
          put_offset a1 (i + 1) newOffset) i a)
      (fun a' => aok a' (A ++ squeeze r k T)).
Proof.
  induction T as [|[r' k'] T IH]; intros a A r k i H ->; cbn [for_up length].
  - apply oks_ok. exact H.
  - destruct H as [I E]. set (L := A ++ (r, k) :: (r', k') :: T) in *.
    assert (N0 : nth_error L (length A) = Some (r, k)) by (unfold L; rewrite nth_error_app2, Nat.sub_diag by lia; reflexivity).
    assert (N1 : nth_error L (length A + 1) = Some (r', k')).
    { unfold L; rewrite nth_error_app2 by lia. replace (length A + 1 - length A) with 1 by lia. reflexivity. }
    assert (LL : length L = length A + 2 + length T) by (unfold L; len).
    assert (T0 : total (firstn (length A) L) = total A) by (unfold L; rewrite firstn_app_exact; auto).
    assert (T1 : total (firstn (length A + 1) L) = total A + length r + k) by (rewrite (total_firstn_S N0), T0; unfold wid; simpl; lia).
    rewrite (offset_at I) by lia. cbn [bind]. rewrite (offset_at I) by lia. cbn [bind].
    rewrite (sizeOf_at chk I N0). cbn [bind fst]. rewrite T0, T1.
    rewrite sub_ix_ok by lia. cbn [bind].
    replace (total A + length r + k - total A) with (length r + k) by lia.
    rewrite sub_ix_ok by lia. cbn [bind]. replace (length r + k - length r) with k by lia.
    rewrite (sizeOf_at chk I N1). cbn [bind fst].
    eapply oks_bind with (P := fun a' => aok a' (A ++ (r, 0) :: (r', k' + k) :: T)).
    + eapply oks_bind; [eapply each_oks; [exact E|]|].
      * intros X g t b Hb. apply lay_pull. exact Hb.
      * intros a1 (X1 & X2 & X3 & X4). rewrite sub_ix_ok by lia. cbn [bind].
        replace (total A + length r + k - k) with (total A + length r) by lia.
        destruct I as (NA & O & Z). unfold put_offset. eapply oks_bind.
        -- eapply assign_mid with (xs := starts 0 A ++ [total A]) (y := total A + (length r + k))
             (ys := offsets (total A + (length r + k) + (length r' + k')) T).
           ++ rewrite X2. eapply holds_eq; [exact O|]. unfold L. rewrite offsets_app, <- app_assoc. simpl. unfold wid. simpl. reflexivity.
           ++ rewrite app_length, starts_length. reflexivity.
        -- intros o [Ho _]. apply oks_ok. split; [split; [|split]|exact X4]; simpl.
           ++ rewrite X1, NA, LL. len.
           ++ eapply holds_eq; [exact Ho|]. rewrite offsets_app, <- app_assoc. simpl. unfold wid. simpl.
              do 3 f_equal; [lia|]. f_equal. lia.
           ++ rewrite X3. eapply holds_eq; [exact Z|]. unfold L. rewrite !sizes_app. reflexivity.
    + intros a1 A1. eapply oks_mono.
      * eapply IH with (A := A ++ [(r, 0)]) (r := r') (k := k' + k); [rewrite <- app_assoc; exact A1|len].
      * intros a2 A2. simpl. rewrite <- app_assoc in A2. exact A2.
Qed.

Lemma closed_length L : length (closed L) = length L.
Proof. apply map_length. Qed.

Lemma compress_ok a L : aok a L -> oks (compress chk tv tw dual a) (fun a' => aok a' (closed L)).
Proof.
  intros H. pose proof H as [(N & O & Z) E]. unfold compress. rewrite N.
  destruct L as [|[r k] T]; [apply oks_ok; exact H|]. change (length ((r, k) :: T) =? 0) with false. cbv iota.
  replace (length ((r, k) :: T) - 1) with (length T) by (simpl; lia).
  eapply oks_bind; [eapply compress_loop with (A := []) (r := r) (k := k); [exact H|reflexivity]|].
  cbn [app]. intros a1 A1. destruct (squeeze_last r k T) as (D & x & j & ES & LD & EC). rewrite ES in A1. rewrite <- EC.
  destruct A1 as [I1 E1]. pose proof I1 as (N1 & O1 & Z1). rewrite N1.
  assert (LL : length (D ++ [(x, j)]) = length D + 1) by len. rewrite LL.
  replace (length D + 1 - 1) with (length D) by lia.
  rewrite (offset_at I1) by lia. cbn [bind]. rewrite firstn_app_exact by auto.
  rewrite (sizeOf_at chk (r := (x, j)) I1) by (rewrite nth_error_app2, Nat.sub_diag by lia; reflexivity). cbn [bind fst].
  unfold put_offset. eapply oks_bind.
  - eapply assign_mid with (xs := starts 0 D ++ [total D]) (ys := []).
    + eapply holds_eq; [exact O1|]. rewrite offsets_app, <- app_assoc. simpl. reflexivity.
    + rewrite app_length, starts_length. reflexivity.
  - intros o [Ho _]. apply oks_ok. split; [split; [|split]|]; simpl.
    + rewrite N1. len.
    + eapply holds_eq; [exact Ho|]. rewrite offsets_app, <- app_assoc. simpl. unfold wid. simpl. do 3 f_equal. lia.
    + eapply holds_eq; [exact Z1|]. rewrite !sizes_app. reflexivity.
    + assert (G : forall (X : Type) (g : P -> X) t b, lay g t b (D ++ [(x, j)]) -> lay g t b (D ++ [(x, 0)])).
      { intros X g t b [q M]. exists (j + q). eapply mem_cast; [exact M|]. rewrite !flat_app. simpl. unfold cells. simpl.
        lapp. rewrite repeat_app_add. auto. }
      destruct E1 as [V1 W1]. split; simpl; auto.
Qed.

(** ** free *)
Lemma holds_nil_cap {X} (t : bool) (b : buf X) : holds t b [] -> release t b = Ok tt.
Proof. intros [k M]. simpl in M. exact (release_ok _ M). Qed.

Lemma free_ok a L : pok a L -> oks (aoa_free chk tv tw dual kind a) (fun a' => pok a' [] /\ offs a' = [] /\ szs a' = [] /\ vals a' = []).
Proof.
  intros H. pose proof H as (N & O & Z & E). unfold aoa_free.
  eapply oks_bind; [apply (@destroyAll_ok P V W fv fw chk tv tw dual a L N (pok_iok H) E)|].
  intros a1 (N1 & O1 & Z1 & E1). rewrite O1, Z1. unfold free_buffer at 1 2.
  rewrite (holds_nil_cap (holds_forget (xs := []) Z)). cbn [bind].
  rewrite (holds_nil_cap (holds_forget (xs := []) O)). cbn [bind].
  destruct E1 as [[kv Mv] Ew]. simpl in Mv. unfold each, free_buffer. 
  rewrite (release_ok _ Mv). cbn [bind].
  destruct dual eqn:D.
  - destruct (Ew eq_refl) as [kw Mw]. simpl in Mw. rewrite (release_ok _ Mw). cbn [bind].
    apply oks_ok. unfold pok, vok, lay. simpl. repeat (split; intros); try (exists 0; constructor); auto.
  - cbn [bind]. apply oks_ok. unfold pok, vok, lay. simpl. repeat (split; intros); try (exists 0; constructor); auto. congruence.
Qed.

(** ** Adding and removing whole arrays *)
Lemma lay_insert_empty {X} (g : P -> X) t b A B : lay g t b (A ++ B) -> lay g t b (A ++ ([], 0) :: B).
Proof. intros [k M]. exists k. eapply mem_cast; [exact M|]. rewrite !flat_app. reflexivity. Qed.
Lemma vok_insert_empty a a' A B : vok a (A ++ B) -> vals a' = vals a -> ents a' = ents a -> vok a' (A ++ ([], 0) :: B).
Proof. intros [E1 E2] Q1 Q2. split; [rewrite Q1|rewrite Q2]; intros; apply lay_insert_empty; auto. Qed.

Lemma push_ok a L : aok a L -> oks (push_array chk kind a) (fun a' => aok a' (L ++ [([], 0)])).
Proof.
  intros [I E]. pose proof I as (N & O & Z). unfold push_array. rewrite N, (offset_at I), firstn_all by auto. cbn [bind].
  eapply oks_bind.
  { rewrite <- (offsets_length L 0). apply (BufferManipProofs.emplaceBack_ok chk (kind := BMalloc) (total L) O). left; auto. }
  intros o [Ho _].
  eapply oks_bind.
  { rewrite <- (sizes_length L). apply (BufferManipProofs.emplaceBack_ok chk (kind := BMalloc) 0 Z). left; auto. }
  intros z [Hz _]. apply oks_ok. split; [split; [|split]|]; simpl.
  - len.
  - eapply holds_eq; [exact Ho|]. rewrite offsets_app, offsets_last, <- app_assoc. simpl. unfold wid. simpl. do 3 f_equal. lia.
  - eapply holds_eq; [exact Hz|]. rewrite sizes_app. reflexivity.
  - apply vok_insert_empty with (a := a); auto. rewrite app_nil_r. auto.
Qed.

Lemma open_ok a A B i : aok a (A ++ B) -> i = length A ->
  oks (open_array chk kind a i) (fun a' => aok a' (A ++ ([], 0) :: B)).
Proof.
  intros [I E] ->. pose proof I as (N & O & Z). unfold open_array.
  rewrite (check_insert_at chk I) by len. cbn [bind].
  rewrite (offset_at I), firstn_app_exact by len. cbn [bind].
  destruct (offsets_cons (total A) B) as [l El].
  assert (EO : offsets 0 (A ++ B) = (starts 0 A ++ [total A]) ++ l).
  { rewrite offsets_app, <- app_assoc. simpl. rewrite El. reflexivity. }
  eapply oks_bind.
  { rewrite N. replace (length (A ++ B) + 1) with (length ((starts 0 A ++ [total A]) ++ l)) by (rewrite <- EO, offsets_length; auto).
    replace (length A + 1) with (length (starts 0 A ++ [total A])) by (rewrite app_length, starts_length; auto).
    apply (BufferManipProofs.emplace_ok chk (kind := BMalloc) (starts 0 A ++ [total A]) l (total A)); [|left; auto].
    eapply holds_eq; [exact O|exact EO]. }
  intros o [Ho _].
  eapply oks_bind.
  { rewrite N. replace (length (A ++ B)) with (length (sizes A ++ sizes B)) by (rewrite <- sizes_app, sizes_length; auto).
    replace (length A) with (length (sizes A)) by apply sizes_length.
    apply (BufferManipProofs.emplace_ok chk (kind := BMalloc) (sizes A) (sizes B) 0); [|left; auto].
    eapply holds_eq; [exact Z|apply sizes_app]. }
  intros z [Hz _]. apply oks_ok. split; [split; [|split]|]; simpl.
  - rewrite N. len.
  - eapply holds_eq; [exact Ho|]. rewrite offsets_app, <- app_assoc. simpl. unfold wid. simpl.
    rewrite Nat.add_0_r, El. reflexivity.
  - eapply holds_eq; [exact Hz|]. rewrite sizes_app. reflexivity.
  - apply vok_insert_empty with (a := a); auto.
Qed.

Lemma erase_ok a A x B i : aok a (A ++ x :: B) -> i = length A ->
  okb (allt || nogap (A ++ x :: B)) (eraseArray chk tv tw dual kind a i) (fun a' => aok a' (A ++ B)).
Proof.
  intros H ->. destruct x as [r k]. unfold eraseArray. pose proof H as [I E].
  rewrite (check_array_at chk I) by len. cbn [bind].
  eapply okb_bind; [eapply setCapacity_ok with (c := 0); [exact H|reflexivity]|].
  intros a1 A1. simpl in A1. left. clear H I E. destruct A1 as [(N & O & Z) E].
  assert (EO : offsets 0 (A ++ ([], 0) :: B) = (starts 0 A ++ [total A]) ++ offsets (total A) B).
  { rewrite offsets_app, <- app_assoc. simpl. unfold wid. simpl. rewrite Nat.add_0_r. reflexivity. }
  destruct (offsets_cons (total A) B) as [l El].
  eapply oks_bind.
  { rewrite N. replace (length (A ++ ([], 0) :: B) + 1) with (length ((starts 0 A ++ [total A]) ++ total A :: l))
      by (rewrite <- El, <- EO, offsets_length; auto).
    replace (length A + 1) with (length (starts 0 A ++ [total A])) by (rewrite app_length, starts_length; auto).
    apply (BufferManipProofs.erase_ok chk (starts 0 A ++ [total A]) (total A) l).
    eapply holds_eq; [exact O|rewrite EO, El; reflexivity]. }
  intros o [Ho _].
  eapply oks_bind.
  { rewrite N. replace (length (A ++ ([], 0) :: B)) with (length (sizes A ++ 0 :: sizes B))
      by (rewrite !app_length; simpl; rewrite !sizes_length; auto).
    replace (length A) with (length (sizes A)) by apply sizes_length.
    apply (BufferManipProofs.erase_ok chk (sizes A) 0 (sizes B)).
    eapply holds_eq; [exact Z|rewrite sizes_app; reflexivity]. }
  intros z [Hz _]. apply oks_ok. split; [split; [|split]|]; simpl.
  - rewrite N. len.
  - eapply holds_eq; [exact Ho|]. rewrite offsets_app, <- app_assoc. simpl. rewrite El. reflexivity.
  - eapply holds_eq; [exact Hz|]. rewrite sizes_app. reflexivity.
  - assert (G : forall (X : Type) (g : P -> X) t b, lay g t b (A ++ ([], 0) :: B) -> lay g t b (A ++ B)).
    { intros X g t b [q M]. exists q. eapply mem_cast; [exact M|]. rewrite !flat_app. reflexivity. }
    destruct E as [E1 E2]. split; simpl; auto.
Qed.

End AoAP2.
