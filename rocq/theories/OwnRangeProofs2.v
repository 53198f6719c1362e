(** Growing an inner array when m_values keeps its block, and reading slots by their old address. *)
From Coq Require Import List Arith ZArith Lia Bool.
From Verif Require Import Base BaseProofs Mem MemProofs BufferManip AoA AoASpec AoALayout AoAProofs AoAProofs3 OwnRange OwnRangeProofs.
From Verif Require ArrayManip BufferManipProofs.
Import ListNotations.
Set Implicit Arguments.
Unset Strict Implicit.

Section Own.
Variable V W : Type.
Variable chk tv tw : bool.
Variable fw : V -> W.
Notation kind := BMalloc.
Notation dual := false.
Notation aoa := (aoa V W).
Notation row := (list V * nat)%type.
Notation rows := (list row).
Notation idv := (fun v : V => v).
Notation vok := (@vok V V W idv fw tv tw false).
Notation aok := (@aok V V W idv fw tv tw false).
Notation iok := (@iok V V W).
Notation LVs := (map (@LV V)).
Implicit Types a : aoa.
Implicit Types L A B T : rows.

(** setCapacityOfArray to a larger capacity when m_values is large enough *)
Lemma setCapacity_stay a A r k B c : aok a (A ++ (r, k) :: B) -> length r + k < c ->
  total (A ++ (r, k) :: B) + (c - (length r + k)) <= length (vals a) ->
  oks (setCapacityOfArray chk tv tw dual kind a (length A) c)
      (fun a' => aok a' (A ++ (r, c - length r) :: B) /\ length (vals a') = length (vals a)).
Proof.
  intros [I E] Lt C. set (L := A ++ (r, k) :: B) in *.
  assert (N : nth_error L (length A) = Some (r, k)) by (unfold L; rewrite nth_error_app2, Nat.sub_diag by lia; reflexivity).
  assert (LL : length L = length A + 1 + length B) by (unfold L; len).
  pose proof I as (NA & O & Z).
  assert (OE : offsets 0 L = (starts 0 A ++ [total A]) ++ offsets (total A + wid (r, k)) B).
  { unfold L. rewrite offsets_app. rewrite <- app_assoc. reflexivity. }
  assert (NB : forall j x, nth_error B j = Some x -> nth_error L (length A + 1 + j) = Some x).
  { intros j x H. unfold L. rewrite nth_error_app2 by lia.
    replace (length A + 1 + j - length A) with (S j) by lia. exact H. }
  assert (TB : forall j, total (firstn (length A + 1 + j) L) = total A + wid (r, k) + total (firstn j B)).
  { intros j. unfold L. rewrite firstn_app, firstn_all2 by lia.
    replace (length A + 1 + j - length A) with (S j) by lia. rewrite total_app. simpl. lia. }
  assert (Wd : wid (r, k) = length r + k) by reflexivity.
  unfold setCapacityOfArray. rewrite (check_array_at _ I) by lia. cbn [bind].
  rewrite (capacityOf_at _ I N). cbn [bind]. rewrite Wd.
  destruct (Nat.eqb_spec c (length r + k)); [lia|]. destruct (Nat.ltb_spec (length r + k) c); [|lia].
  set (inc := c - (length r + k)) in *. rewrite NA, (offset_at I), firstn_all by auto. cbn [bind].
  assert (K : oks (each tv tw dual (fun (X : Type) (t : bool) (b : buf X) =>
            b1 <- BufferManip.dynamicReserve chk t kind b (total L) (total L + inc) ;;
            for_down (length L - 1 - length A) (fun k0 b =>
              s <- sizeOfArray chk a (length A + 1 + k0) ;; o <- offset a (length A + 1 + k0) ;;
              ArrayManip.uninitializedShiftUp t b o s inc) b1) a)
     (fun a' => numArrays a' = numArrays a /\ offs a' = offs a /\ szs a' = szs a /\ vok a' (A ++ (r, k + inc) :: B) /\ length (vals a') = length (vals a))).
  { unfold each. destruct E as [[q M] E2]. pose proof (mem_length M) as EL. rewrite app_length, repeat_length, flat_length in EL.
    assert (D : BufferManip.dynamicReserve chk tv kind (vals a) (total L) (total L + inc) = Ok (vals a)).
    { unfold dynamicReserve, check, capacity. rewrite check_if_ok by (apply Nat.ltb_ge; lia). cbn [bind].
      destruct (Nat.ltb_spec (length (vals a)) (total L + inc)); [lia|reflexivity]. }
    rewrite D. cbn [bind]. replace (length L - 1 - length A) with (length B) by lia.
    eapply oks_bind.
    - eapply rows_up with (f := idv) (p := flat idv (A ++ [(r, k)])) (T := B) (inc := inc) (s := repeat LN (q - inc)).
      + eapply mem_cast; [exact M|]. unfold L. rewrite !flat_app. simpl. rewrite app_nil_r.
        rewrite <- !app_assoc. do 3 f_equal. rewrite <- repeat_app_add. f_equal. lia.
      + intros j x Hj b0. cbn beta. rewrite (sizeOf_at _ I (NB _ _ Hj)). cbn [bind].
        assert (j < length B) by (apply nth_error_Some; congruence).
        rewrite (offset_at I) by lia. cbn [bind]. rewrite TB. f_equal.
        rewrite flat_length, total_app. simpl. lia.
    - intros b2 M2. cbn [bind]. apply oks_ok. cbn [numArrays offs szs vals]. repeat (split; [reflexivity|]). split.
      + split; [|discriminate]. exists (q - inc). eapply mem_cast; [exact M2|].
        rewrite !flat_app. simpl. unfold cells. simpl. rewrite !app_nil_r, <- !app_assoc. do 2 f_equal.
        rewrite repeat_app_add, <- !app_assoc. auto.
      + apply mem_length in M2. rewrite M2, EL, !app_length, !repeat_length, !flat_length, total_app. unfold L. rewrite total_app.
        cbn [total]. unfold wid. cbn [fst snd]. rewrite Nat.add_0_r. unfold L in *. lia. }
  eapply oks_bind; [exact K|]. intros a1 (E1 & E2 & E3 & E4 & E5). rewrite E1, NA.
  replace (length L - length A) with (length (offsets (total A + wid (r, k)) B)) by (rewrite offsets_length; lia).
  eapply oks_mono; [eapply (@offs_loop V W (fun y => Ok (y + inc)) (fun y => y + inc)) with (xs := starts 0 A ++ [total A])|].
  - rewrite E2, <- OE. exact O.
  - rewrite app_length, starts_length. reflexivity.
  - auto.
  - intros a2 (o & -> & Ho).
    assert (Ei : c - length r = k + inc) by (unfold inc; lia). rewrite Ei. split; [split; [split; [|split]|]|].
    + simpl. rewrite E1, NA, LL. len.
    + simpl. eapply eq_rect with (P := fun l => BufferManipProofs.holds true o l); [exact Ho|].
      rewrite offsets_shift, offsets_app, <- app_assoc. simpl. do 3 f_equal. unfold wid. simpl. lia.
    + simpl. rewrite E3. eapply eq_rect with (P := fun l => BufferManipProofs.holds true (szs a) l); [exact Z|].
      unfold L. rewrite !sizes_app. reflexivity.
    + exact E4.
    + exact E5.
Qed.

(** Whether m_values is reallocated. *)
Definition moves a A (r : list V) k B inc : bool :=
  ((length r + k <? length r + inc) && (length (vals a) <? total (A ++ (r, k) :: B) + (2 * (length r + inc) - (length r + k))))%bool.
Lemma reallocates_eq a A r k B inc : aok a (A ++ (r, k) :: B) -> reallocates chk a (length A) inc = Ok (moves a A r k B inc).
Proof.
  intros [I E]. pose proof I as (NA & _). unfold reallocates, moves. rewrite (row_size chk I). cbn [bind].
  rewrite (capacityOf_at chk I (row_nth A (r, k) B)). cbn [bind]. unfold wid. cbn [fst snd].
  destruct (length r + k <? length r + inc); [|reflexivity]. rewrite NA, (offset_at I), firstn_all by auto. reflexivity.
Qed.
Lemma grow_stay a A r k B inc : aok a (A ++ (r, k) :: B) -> moves a A r k B inc = false ->
  oks (growOwn chk tv tw dual kind a (length A) inc)
      (fun a' => dynamicallyGrowArray chk tv tw dual kind a (length A) inc = Ok a' /\
                 aok a' (A ++ (r, grown (length r) (length r + k) inc - length r) :: B) /\ length (vals a') = length (vals a) /\
                 (inc <= k -> a' = a)).
Proof.
  intros H Mv. unfold growOwn. rewrite (reallocates_eq inc H), Mv. cbn [bind].
  assert (G : oks (dynamicallyGrowArray chk tv tw dual kind a (length A) inc) (fun a' =>
                 aok a' (A ++ (r, grown (length r) (length r + k) inc - length r) :: B) /\ length (vals a') = length (vals a) /\ (inc <= k -> a' = a))).
  { pose proof H as [I E]. unfold dynamicallyGrowArray.
    rewrite (row_size chk I). cbn [bind]. rewrite (capacityOf_at chk I (row_nth A (r, k) B)). cbn [bind].
    unfold wid. cbn [fst snd]. unfold grown. unfold moves in Mv. destruct (Nat.ltb_spec (length r + k) (length r + inc)).
    - cbn [andb] in Mv. apply Nat.ltb_ge in Mv. eapply oks_mono; [eapply setCapacity_stay; [exact H|lia|lia]|]. intros a' [A' C']. split; [exact A'|]. split; [exact C'|]. lia.
    - apply oks_ok. replace (length r + k - length r) with k by lia. auto. }
  destruct G as (a1 & E1 & P1). rewrite E1. cbn [bind dangles]. apply oks_ok. auto.
Qed.
(** ... and then the capacity does change. *)
Lemma grow_moves a A r k B inc : aok a (A ++ (r, k) :: B) -> moves a A r k B inc = true ->
  growOwn chk tv tw dual kind a (length A) inc = Fault FDangling \/
  (tv = false /\ growOwn chk tv tw dual kind a (length A) inc = Fault FMove).
Proof.
  intros H Mv. unfold growOwn. rewrite (reallocates_eq inc H), Mv. cbn [bind].
  destruct (grow_ok chk inc H) as [(a1 & E1 & _)|[T E1]]; rewrite E1; cbn [bind dangles]; auto.
  right. split; auto. apply orb_false_iff in T. destruct T as [T _]. rewrite allt_tv in T. exact T.
Qed.

(** Slots and their values. *)
Lemma row_reads a L k rk g : aok a L -> nth_error L k = Some (rk, g) -> reads (vals a) (total (firstn k L)) rk.
Proof.
  intros H N x v Hx. apply nth_error_split in N. destruct N as (A & B & -> & <-). destruct (aok_row H) as [q Mm].
  rewrite firstn_app_exact by auto. rewrite <- (flat_length idv A).
  eapply rd_nth; [exact Mm|]. rewrite nth_error_app2 by lia. replace (length (flat idv A) + x - length (flat idv A)) with x by lia.
  assert (x < length rk) by (apply nth_error_Some; congruence). rewrite nth_error_app1 by len. apply map_nth_error. exact Hx.
Qed.
Lemma reads_sub (b : buf V) q vs l n : reads b q vs -> l + n <= length vs -> reads b (q + l) (firstn n (skipn l vs)).
Proof.
  intros R Ln x v Hx. rewrite <- Nat.add_assoc. apply R.
  assert (Lx : x < n). { assert (x < length (firstn n (skipn l vs))) by (apply nth_error_Some; congruence). rewrite firstn_length in H. lia. }
  rewrite <- (firstn_skipn l vs). rewrite nth_error_app2 by (rewrite firstn_length; lia).
  rewrite firstn_length. replace (l + x - Nat.min l (length vs)) with x by lia.
  rewrite <- (firstn_skipn n (skipn l vs)). rewrite nth_error_app1 by (apply nth_error_Some; congruence). exact Hx.
Qed.
(** A slot below the offset of the last array: inside an inner array or unused. *)
Lemma slot_cases L p : p < total L ->
  exists k rk g x, nth_error L k = Some (rk, g) /\ p = total (firstn k L) + x /\ x < length rk + g.
Proof.
  revert p. induction L as [|[r g] L IH]; intros p H; cbn [total] in H; [lia|]. unfold wid in H. cbn [fst snd] in H.
  destruct (Nat.lt_ge_cases p (length r + g)) as [Lp|Lp].
  - exists 0, r, g, p. cbn. auto.
  - destruct (IH (p - (length r + g))) as (k & rk & g' & x & N & E & Lx); [lia|]. exists (S k), rk, g', x. split; [exact N|]. split; [|exact Lx].
    cbn [firstn total]. unfold wid. cbn [fst snd]. lia.
Qed.
Lemma unused_read a L k rk g x : aok a L -> nth_error L k = Some (rk, g) -> length rk <= x < length rk + g -> tv = false ->
  rd (vals a) (total (firstn k L) + x) = Fault FRead.
Proof.
  intros H N Hx T. apply nth_error_split in N. destruct N as (A & B & -> & <-). destruct (aok_row H) as [q Mm].
  rewrite firstn_app_exact by auto. rewrite <- (flat_length idv A).
  assert (G : exists c, nth_error (vals a) (length (flat idv A) + x) = Some c /\ crel tv c LN).
  { revert Mm. generalize (flat idv A) as lA. intros lA Mm.
    assert (Nx : nth_error (lA ++ LVs rk ++ repeat LN g ++ flat idv B ++ repeat LN q) (length lA + x) = Some LN).
    { rewrite nth_error_app2 by lia. replace (length lA + x - length lA) with x by lia.
      rewrite nth_error_app2 by (rewrite map_length; lia). rewrite map_length. rewrite nth_error_app1 by (rewrite repeat_length; lia).
      apply nth_error_repeat. lia. }
    revert Nx. generalize (length lA + x) as p. generalize dependent (lA ++ LVs rk ++ repeat LN g ++ flat idv B ++ repeat LN q).
    intros l Mm. induction Mm as [|c y l1 l2 Hc Mm IH]; intros [|p] Nx; try discriminate.
    - injection Nx as ->. exists c. auto.
    - apply IH. exact Nx. }
  destruct G as (c & Nc & Hc). destruct Hc as [T'| Hc]; [congruence|subst c]. unfold rd, aget. rewrite Nc. reflexivity.
Qed.
End Own.
