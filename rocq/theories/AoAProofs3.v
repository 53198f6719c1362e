(** The members of ArrayOfArrays which change one inner array, and histories of calls. *)
From Coq Require Import List Arith ZArith Lia Bool.
From Verif Require Import Base BaseProofs Mem MemProofs ArrayManipProofs BufferManip BufferManipProofs AoA AoASpec AoALayout AoAProofs AoAProofs2.
From Verif Require ArrayManip.
Import ListNotations.
Set Implicit Arguments.
Unset Strict Implicit.

Section AoAP3.
Variable V W : Type.
Variable chk tv tw : bool.
Notation P := V.
Notation kind := BMalloc.
Notation dual := false.
Notation aoa := (aoa V W).
Notation row := (list P * nat)%type.
Notation rows := (list row).
Variable fw : V -> W.
Notation idv := (fun v : V => v).
Notation allt := (allt tv tw false).
Notation vok := (@vok V V W idv fw tv tw false).
Notation aok := (@aok V V W idv fw tv tw false).
Notation pok := (@pok V V W idv fw tv tw false).
Notation iok := (@iok V V W).
Notation LVs := (map (@LV V)).
Implicit Types a : aoa.
Implicit Types L A B T : rows.

Lemma allt_tv : allt = tv.
Proof. unfold AoAProofs.allt. simpl. apply andb_true_r. Qed.

Lemma cells_id (r : list V) k : cells idv (r, k) = LVs r ++ repeat LN k.
Proof. unfold cells. simpl. rewrite map_id. reflexivity. Qed.

(** The buffer around row [(r, k)]. *)
Lemma aok_row a A r k B : aok a (A ++ (r, k) :: B) ->
  exists q, mem tv (vals a) (flat idv A ++ LVs r ++ repeat LN k ++ flat idv B ++ repeat LN q).
Proof.
  intros [_ [[q M] _]]. exists q. eapply mem_cast; [exact M|]. rewrite flat_app. simpl. unfold cells at 1. simpl.
  rewrite map_id, <- !app_assoc. auto.
Qed.

Lemma row_put a A r k B r' k' b q i :
  iok a (A ++ (r, k) :: B) -> mem tv b (flat idv A ++ LVs r' ++ repeat LN k' ++ flat idv B ++ repeat LN q) ->
  length r' + k' = length r + k -> i = length A ->
  oks (put_size (set_vals b a) i (length r')) (fun a' => aok a' (A ++ (r', k') :: B)).
Proof.
  intros (N & O & Z) M Wd ->. unfold put_size. eapply oks_bind.
  - eapply assign_mid with (xs := sizes A) (y := length r) (ys := sizes B); [|rewrite sizes_length; reflexivity].
    simpl. eapply holds_eq; [exact Z|]. rewrite sizes_app. reflexivity.
  - intros z [Hz _]. apply oks_ok. split; [split; [|split]|split]; simpl.
    + rewrite N. len.
    + eapply holds_eq; [exact O|]. rewrite !offsets_app. simpl. unfold wid. simpl. rewrite Wd. reflexivity.
    + eapply holds_eq; [exact Hz|]. rewrite sizes_app. reflexivity.
    + exists q. eapply mem_cast; [exact M|]. rewrite flat_app. simpl. unfold cells at 1. simpl.
      rewrite map_id, <- !app_assoc. auto.
    + discriminate.
Qed.

Lemma row_off a A r k B : iok a (A ++ (r, k) :: B) -> offset a (length A) = Ok (length (flat idv A)).
Proof. intros I. rewrite (offset_at I) by len. rewrite firstn_app_exact, flat_length by auto. reflexivity. Qed.
Lemma row_nth A (x : row) B : nth_error (A ++ x :: B) (length A) = Some x.
Proof. rewrite nth_error_app2, Nat.sub_diag by lia. reflexivity. Qed.
Lemma row_size a A r k B : iok a (A ++ (r, k) :: B) -> sizeOfArray chk a (length A) = Ok (length r).
Proof. intros I. apply (sizeOf_at chk I (row_nth A (r, k) B)). Qed.
Lemma row_check a A r k B : iok a (A ++ (r, k) :: B) -> check_array chk a (length A) = Ok tt.
Proof. intros I. apply (check_array_at chk I). len. Qed.
Lemma row_cap a A r k B inc : iok a (A ++ (r, k) :: B) -> inc <= k -> check_capacity chk a (length A) inc = Ok tt.
Proof.
  intros I H. unfold check_capacity. destruct chk eqn:C; auto.
  rewrite (sizeOf_at true I (row_nth A (r, k) B)). cbn [bind fst].
  rewrite (capacityOf_at true I (row_nth A (r, k) B)). cbn [bind]. apply error_if_ok. apply Nat.ltb_ge.
  unfold wid. simpl. lia.
Qed.
Lemma row_check2 a A r k B j : iok a (A ++ (r, k) :: B) -> j < length r -> check_array2 chk a (length A) j = Ok tt.
Proof.
  intros I H. unfold check_array2. destruct chk; auto. pose proof I as (N & _ & _).
  rewrite N. rewrite error_if_ok by (apply Nat.leb_gt; len). cbn [bind].
  rewrite (size_at I (row_nth A (r, k) B)). cbn [bind fst]. apply error_if_ok, Nat.leb_gt. auto.
Qed.
Lemma row_insert2 a A r k B j : iok a (A ++ (r, k) :: B) -> j <= length r -> check_array_insert2 chk a (length A) j = Ok tt.
Proof.
  intros I H. unfold check_array_insert2. destruct chk eqn:C; auto. pose proof I as (N & _ & _).
  rewrite N. rewrite error_if_ok by (apply Nat.leb_gt; len). cbn [bind].
  rewrite (sizeOf_at true I (row_nth A (r, k) B)). cbn [bind fst]. apply error_if_ok, Nat.ltb_ge. auto.
Qed.

(** ** View members *)
Lemma v_emplaceBack_ok a A r k B v : aok a (A ++ (r, S k) :: B) ->
  oks (v_emplaceBack chk tv a (length A) v) (fun a' => aok a' (A ++ (r ++ [v], k) :: B)).
Proof.
  intros H. pose proof H as [I E]. destruct (aok_row H) as [q M]. unfold v_emplaceBack.
  rewrite (row_check I). cbn [bind]. rewrite (row_cap I) by lia. cbn [bind].
  rewrite (row_off I). cbn [bind]. rewrite (row_size I). cbn [bind].
  eapply oks_bind.
  - eapply ArrayManipProofs.emplaceBack_ok with (c := LN); [exact M|auto|auto|simpl; auto].
  - intros b Mb. replace (length r + 1) with (length (r ++ [v])) by len.
    eapply row_put; [exact I|exact Mb|len|auto].
Qed.

Lemma v_append_ok a A r k B vs : aok a (A ++ (r, k) :: B) -> length vs <= k ->
  oks (v_appendToArray chk tv a (length A) vs) (fun a' => aok a' (A ++ (r ++ vs, k - length vs) :: B)).
Proof.
  intros H C. pose proof H as [I E]. destruct (aok_row H) as [q M]. unfold v_appendToArray.
  rewrite (row_check I). cbn [bind].
  rewrite (row_off I). cbn [bind]. rewrite (row_size I). cbn [bind].
  eapply oks_bind.
  - eapply ArrayManipProofs.append_ok with (n := length vs) (s := repeat LN (k - length vs) ++ flat idv B ++ repeat LN q); auto.
    eapply mem_cast; [exact M|]. do 2 f_equal. rewrite !app_assoc, <- repeat_app_add. do 3 f_equal. lia.
  - intros [b n] [Mb En]. simpl in Mb, En. subst n.
    assert (I' : iok (set_vals b a) (A ++ (r, k) :: B)) by exact I.
    rewrite (row_cap I') by lia. cbn [bind].
    replace (length r + length vs) with (length (r ++ vs)) by len.
    eapply row_put; [exact I|exact Mb|len|auto].
Qed.

Lemma v_emplace_ok a A xs ys k B v : aok a (A ++ (xs ++ ys, S k) :: B) ->
  oks (v_emplace chk tv a (length A) (length xs) v) (fun a' => aok a' (A ++ (xs ++ v :: ys, k) :: B)).
Proof.
  intros H. pose proof H as [I E]. destruct (aok_row H) as [q M]. unfold v_emplace.
  rewrite (row_insert2 I) by len. cbn [bind]. rewrite (row_cap I) by lia. cbn [bind].
  rewrite (row_off I). cbn [bind]. rewrite (row_size I). cbn [bind].
  eapply oks_bind.
  - eapply ArrayManipProofs.emplace_ok with (xs := xs) (ys := ys); [|auto|auto|len].
    eapply mem_cast; [exact M|]. rewrite map_app. lapp. auto.
  - intros b Mb. replace (length (xs ++ ys) + 1) with (length (xs ++ v :: ys)) by len.
    eapply row_put; [exact I|exact Mb|len|auto].
Qed.

Lemma v_insert_ok a A xs ys k B ws : aok a (A ++ (xs ++ ys, k) :: B) -> length ws <= k ->
  oks (v_insertIntoArray chk tv a (length A) (length xs) ws)
      (fun a' => aok a' (A ++ (xs ++ ws ++ ys, k - length ws) :: B)).
Proof.
  intros H C. pose proof H as [I E]. destruct (aok_row H) as [q M]. unfold v_insertIntoArray.
  rewrite (row_insert2 I) by len. cbn [bind]. rewrite (row_cap I) by lia. cbn [bind].
  rewrite (row_off I). cbn [bind]. rewrite (row_size I). cbn [bind].
  eapply oks_bind.
  - eapply ArrayManipProofs.insert_ok with (xs := xs) (ys := ys) (n := length ws)
      (s := repeat LN (k - length ws) ++ flat idv B ++ repeat LN q); [|auto|auto|len|auto].
    eapply mem_cast; [exact M|]. rewrite map_app. lapp. do 3 f_equal.
    rewrite !app_assoc, <- repeat_app_add. do 3 f_equal. lia.
  - intros b Mb. replace (length (xs ++ ys) + length ws) with (length (xs ++ ws ++ ys)) by len.
    eapply row_put; [exact I|exact Mb|len|auto].
Qed.

Lemma eraseFrom_ok a A xs ds ys k B n : aok a (A ++ (xs ++ ds ++ ys, k) :: B) ->
  n = length ds -> 0 < length ds + length ys ->
  oks (eraseFromArray chk tv a (length A) (length xs) n)
      (fun a' => aok a' (A ++ (xs ++ ys, k + n) :: B)).
Proof.
  intros H -> Hp. pose proof H as [I E]. destruct (aok_row H) as [q M]. unfold eraseFromArray.
  rewrite (row_check2 I) by len. cbn [bind].
  rewrite (row_off I). cbn [bind]. rewrite (row_size I). cbn [bind].
  eapply oks_bind.
  - eapply ArrayManipProofs.erase_ok with (xs := xs) (ds := ds) (ys := ys); [|auto|auto|auto|len].
    eapply mem_cast; [exact M|]. rewrite !map_app. lapp. auto.
  - intros b Mb. rewrite sub_ix_ok by len. cbn [bind].
    replace (length (xs ++ ds ++ ys) - length ds) with (length (xs ++ ys)) by len.
    eapply row_put with (k' := k + length ds); [exact I| |len|auto].
    eapply mem_cast; [exact Mb|]. rewrite map_app. lapp. do 3 f_equal.
    rewrite app_assoc, <- repeat_app_add. do 2 f_equal. lia.
Qed.

Lemma set_ok a A xs y ys k B v : aok a (A ++ (xs ++ y :: ys, k) :: B) ->
  oks (aoa_set chk tv a (length A) (length xs) v) (fun a' => aok a' (A ++ (xs ++ v :: ys, k) :: B)).
Proof.
  intros H. pose proof H as [I E]. destruct (aok_row H) as [q M]. unfold aoa_set, slot.
  rewrite (row_check2 I) by len. cbn [bind]. rewrite (row_off I). cbn [bind].
  eapply oks_bind.
  - eapply assign_ok with (p := flat idv A ++ LVs xs) (c := LV y) (s := LVs ys ++ repeat LN k ++ flat idv B ++ repeat LN q).
    + eapply mem_cast; [exact M|]. rewrite map_app. lapp. auto.
    + len.
    + discriminate.
  - intros b Mb. apply oks_ok. destruct I as (N & O & Z). split; [split; [|split]|split]; simpl.
    + rewrite N. len.
    + eapply holds_eq; [exact O|]. rewrite !offsets_app. simpl. unfold wid. simpl. len. reflexivity.
    + eapply holds_eq; [exact Z|]. rewrite !sizes_app. simpl. len. reflexivity.
    + exists q. eapply mem_cast; [exact Mb|]. rewrite flat_app. simpl. unfold cells at 1. simpl.
      rewrite map_id, map_app. lapp. auto.
    + discriminate.
Qed.

(** ** Growing a row *)
Lemma grow_ok a A r k B inc : aok a (A ++ (r, k) :: B) ->
  okb (allt || nogap (A ++ (r, k) :: B)) (dynamicallyGrowArray chk tv tw dual kind a (length A) inc)
      (fun a' => aok a' (A ++ (r, grown (length r) (length r + k) inc - length r) :: B)).
Proof.
  intros H. pose proof H as [I E]. unfold dynamicallyGrowArray.
  rewrite (row_size I). cbn [bind]. rewrite (capacityOf_at chk I (row_nth A (r, k) B)). cbn [bind].
  unfold wid. cbn [fst snd]. unfold grown. destruct (Nat.ltb_spec (length r + k) (length r + inc)).
  - eapply okb_mono; [eapply setCapacity_ok; [exact H|reflexivity]|]. intros a' A'.
    rewrite firstn_all2 in A' by lia. exact A'.
  - left. apply oks_ok. replace (length r + k - length r) with k by lia. exact H.
Qed.
Lemma grown_ge s k inc : inc <= grown s (s + k) inc - s.
Proof. unfold grown. destruct (Nat.ltb_spec (s + k) (s + inc)); lia. Qed.

Lemma emplaceBack_ok a A r k B v : aok a (A ++ (r, k) :: B) ->
  okb (allt || nogap (A ++ (r, k) :: B)) (aoa_emplaceBack chk tv tw dual kind a (length A) v)
      (fun a' => aok a' (A ++ (r ++ [v], grown (length r) (length r + k) 1 - (length r + 1)) :: B)).
Proof.
  intros H. unfold aoa_emplaceBack. eapply okb_bind; [apply grow_ok; exact H|]. intros a1 H1. left.
  pose proof (grown_ge (length r) k 1) as G.
  destruct (grown (length r) (length r + k) 1 - length r) as [|g] eqn:Eg; [lia|].
  replace (grown (length r) (length r + k) 1 - (length r + 1)) with g by lia.
  apply v_emplaceBack_ok. exact H1.
Qed.
Lemma append_ok a A r k B vs : aok a (A ++ (r, k) :: B) ->
  okb (allt || nogap (A ++ (r, k) :: B)) (aoa_appendToArray chk tv tw dual kind a (length A) vs)
      (fun a' => aok a' (A ++ (r ++ vs, grown (length r) (length r + k) (length vs) - (length r + length vs)) :: B)).
Proof.
  intros H. unfold aoa_appendToArray. eapply okb_bind; [apply grow_ok; exact H|]. intros a1 H1. left.
  pose proof (grown_ge (length r) k (length vs)) as G.
  rewrite Nat.sub_add_distr. apply v_append_ok; auto.
Qed.
Lemma emplace_ok a A xs ys k B v : aok a (A ++ (xs ++ ys, k) :: B) ->
  okb (allt || nogap (A ++ (xs ++ ys, k) :: B)) (aoa_emplace chk tv tw dual kind a (length A) (length xs) v)
      (fun a' => aok a' (A ++ (xs ++ v :: ys, grown (length (xs ++ ys)) (length (xs ++ ys) + k) 1 - (length (xs ++ ys) + 1)) :: B)).
Proof.
  intros H. unfold aoa_emplace. eapply okb_bind; [apply grow_ok; exact H|]. intros a1 H1. left.
  pose proof (grown_ge (length (xs ++ ys)) k 1) as G.
  destruct (grown (length (xs ++ ys)) (length (xs ++ ys) + k) 1 - length (xs ++ ys)) as [|g] eqn:Eg; [lia|].
  replace (grown (length (xs ++ ys)) (length (xs ++ ys) + k) 1 - (length (xs ++ ys) + 1)) with g by lia.
  apply v_emplace_ok. exact H1.
Qed.
Lemma insert_ok a A xs ys k B vs : aok a (A ++ (xs ++ ys, k) :: B) ->
  okb (allt || nogap (A ++ (xs ++ ys, k) :: B)) (aoa_insertIntoArray chk tv tw dual kind a (length A) (length xs) vs)
      (fun a' => aok a' (A ++ (xs ++ vs ++ ys,
         grown (length (xs ++ ys)) (length (xs ++ ys) + k) (length vs) - (length (xs ++ ys) + length vs)) :: B)).
Proof.
  intros H. unfold aoa_insertIntoArray. eapply okb_bind; [apply grow_ok; exact H|]. intros a1 H1. left.
  pose proof (grown_ge (length (xs ++ ys)) k (length vs)) as G.
  rewrite Nat.sub_add_distr. apply v_insert_ok; auto.
Qed.

Lemma resizeArray_ok a A r k B n v : aok a (A ++ (r, k) :: B) ->
  okb (allt || nogap (A ++ (r, k) :: B)) (resizeArray chk tv tw dual kind a (length A) n v)
      (fun a' => aok a' (A ++ (resized_to r n v, Nat.max (length r + k) n - n) :: B)).
Proof.
  intros H. pose proof H as [I E]. unfold resizeArray. rewrite (row_check I). cbn [bind].
  rewrite (capacityOf_at chk I (row_nth A (r, k) B)). cbn [bind]. unfold wid. cbn [fst snd].
  eapply okb_bind with (P := fun a1 => aok a1 (A ++ (r, Nat.max (length r + k) n - length r) :: B)).
  - destruct (Nat.ltb_spec (length r + k) n).
    + eapply okb_mono; [eapply setCapacity_ok; [exact H|reflexivity]|]. intros a' A'.
      rewrite firstn_all2 in A' by lia. rewrite Nat.max_r by lia. exact A'.
    + left. apply oks_ok. rewrite Nat.max_l by lia. replace (length r + k - length r) with k by lia. exact H.
  - clear H I E. intros a1 H. pose proof H as [I E]. left.
    rewrite (row_size I). cbn [bind]. rewrite (row_check I). cbn [bind]. rewrite (row_off I). cbn [bind].
    destruct (aok_row H) as [q M]. set (K := Nat.max (length r + k) n) in *.
    assert (LR : length (resized_to r n v) = n) by (unfold resized_to; rewrite app_length, firstn_length, repeat_length; lia).
    destruct (Nat.le_gt_cases (length r) n) as [Hn|Hn].
    + eapply oks_bind.
      * eapply ArrayManipProofs.resize_grow_ok with (vs := r) (n := n - length r)
          (s := repeat LN (K - n) ++ flat idv B ++ repeat LN q); auto; [|lia].
        eapply mem_cast; [exact M|]. do 2 f_equal. rewrite !app_assoc, <- repeat_app_add. do 3 f_equal. lia.
      * intros b Mb. rewrite <- LR at 1. eapply row_put with (k' := K - n); [exact I| |lia|auto].
        eapply mem_cast; [exact Mb|]. unfold resized_to. rewrite firstn_all2 by lia. auto.
    + set (us := firstn n r). set (ws := skipn n r).
      assert (Er : r = us ++ ws) by (symmetry; apply firstn_skipn).
      assert (Lu : length us = n) by (unfold us; rewrite firstn_length; lia).
      eapply oks_bind.
      * eapply ArrayManipProofs.resize_shrink_ok with (vs := us) (ws := ws)
          (s := repeat LN (K - length r) ++ flat idv B ++ repeat LN q); auto.
        -- rewrite <- Er. exact M.
        -- rewrite <- Er. auto.
      * intros b Mb. rewrite <- LR at 1. eapply row_put with (k' := K - n); [exact I| |lia|auto].
        eapply mem_cast; [exact Mb|]. unfold resized_to. replace (n - length r) with 0 by lia. simpl repeat.
        rewrite app_nil_r. fold us. do 2 f_equal. rewrite app_assoc, <- repeat_app_add. do 2 f_equal.
        pose proof (f_equal (@length V) Er) as Q. len.
Qed.

End AoAP3.
