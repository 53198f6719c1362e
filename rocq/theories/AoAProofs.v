(** The members of ArrayOfArraysView which change the structure, on states described by rows. *)
From Coq Require Import List Arith ZArith Lia Bool.
From Verif Require Import Base BaseProofs Mem MemProofs ArrayManipProofs BufferManip BufferManipProofs AoA AoALayout.
From Verif Require ArrayManip.
Import ListNotations.
Set Implicit Arguments.
Unset Strict Implicit.

(** * Integer buffers (offsets and sizes; trivial elements) *)
Lemma holds_forget {A} (b : buf A) xs ys : holds true b (xs ++ ys) -> holds true b xs.
Proof.
  intros [k M]. exists (length ys + k). rewrite map_app, <- app_assoc in M.
  apply mem_app_inv in M. destruct M as (b1 & b2 & -> & M1 & M2). apply mem_app; auto.
  apply mem_app_inv in M2. destruct M2 as (b3 & b4 & -> & M3 & M4).
  rewrite repeat_app_add. apply mem_app; auto. clear -M3.
  revert b3 M3. induction ys as [|y ys IH]; intros b3 M3; inversion M3; subst; simpl; constructor; simpl; auto.
  apply IH; auto.
Qed.

Lemma assign_true {A} (b : buf A) i v : i < length b -> assign true b i v = Ok (upd b i (Obj v)).
Proof.
  intros H. unfold assign, store. destruct (nth_error b i) as [c|] eqn:E; [|apply nth_error_None in E; lia].
  unfold aget. rewrite E. cbn [bind].
  assert (G : aset b i (Obj v) = Ok (upd b i (Obj v))) by (unfold aset; destruct (Nat.ltb_spec i (length b)); [auto|lia]).
  rewrite G. destruct c; auto.
Qed.

Lemma assign_mid {A} (b : buf A) xs y ys i v : holds true b (xs ++ y :: ys) -> i = length xs ->
  oks (assign true b i v) (fun b' => holds true b' (xs ++ v :: ys) /\ length b' = length b).
Proof.
  intros [k M] ->. rewrite map_app in M. simpl in M. rewrite <- app_assoc in M. simpl in M.
  pose proof (mem_length M) as E.
  eapply oks_mono; [eapply assign_ok with (p := map LV xs) (c := LV y) (s := map LV ys ++ repeat LN k); eauto; [len|discriminate]|].
  intros b' M'. split; [exists k; rewrite map_app; simpl; rewrite <- app_assoc; exact M'|].
  apply mem_length in M'. len.
Qed.

Lemma assign_push {A} (b : buf A) xs i v : holds true b xs -> i = length xs -> i < length b ->
  oks (assign true b i v) (fun b' => holds true b' (xs ++ [v]) /\ length b' = length b).
Proof.
  intros [k M] -> C. pose proof (mem_length M) as E. len. destruct k as [|k]; [lia|].
  assert (M1 : mem true b (map LV xs ++ LM :: repeat LN k)).
  { apply mem_app_inv in M. destruct M as (b1 & b2 & -> & M1 & M2). apply mem_app; auto.
    inversion M2; subst. constructor; simpl; auto. }
  eapply oks_mono; [eapply assign_ok with (p := map LV xs) (c := LM) (s := repeat LN k); eauto; [len|discriminate]|].
  intros b' M'. split; [exists k; rewrite map_app; simpl; rewrite <- app_assoc; exact M'|].
  apply mem_length in M'. len.
Qed.

Lemma push_zeros n : forall (b : buf nat) xs i, holds true b xs -> i = length xs -> length xs + n <= length b ->
  oks (for_up n (fun i b => assign true b i 0) i b)
      (fun b' => holds true b' (xs ++ repeat 0 n) /\ length b' = length b).
Proof.
  induction n as [|n IH]; intros b xs i H -> C; cbn [for_up].
  - apply oks_ok. simpl. rewrite app_nil_r. auto.
  - eapply oks_bind; [eapply assign_push; eauto; lia|]. intros b1 [H1 L1].
    eapply oks_mono; [eapply IH with (xs := xs ++ [0]); eauto; len|].
    intros b2 [H2 L2]. split; [|lia]. simpl. rewrite <- app_assoc in H2. exact H2.
Qed.

Section AoAP.
Variable P V W : Type.
Variable fv : P -> V.
Variable fw : P -> W.
Variable chk tv tw dual : bool.
Notation kind := BMalloc.
Notation aoa := (aoa V W).
Notation row := (list P * nat)%type.
Notation rows := (list row).
Implicit Types a : aoa.
Implicit Types L A B T : rows.

(** Can a reallocation of a value buffer fault? *)
Definition allt : bool := (tv && (negb dual || tw))%bool.

Definition vok a L : Prop := lay fv tv (vals a) L /\ (dual = true -> lay fw tw (ents a) L).
Definition iok a L : Prop :=
  numArrays a = length L /\ holds true (offs a) (offsets 0 L) /\ holds true (szs a) (sizes L).
Definition aok a L : Prop := iok a L /\ vok a L.
(** As [aok], but m_offsets may be empty when there are no arrays (after default construction, a move or free). *)
Definition pok a L : Prop :=
  numArrays a = length L /\ holds true (offs a) (match L with [] => [] | _ => offsets 0 L end) /\
  holds true (szs a) (sizes L) /\ vok a L.
Lemma aok_pok a L : aok a L -> pok a L.
Proof.
  intros ((N & O & Z) & E). unfold pok. intuition. destruct L as [|r L]; auto.
  apply (holds_forget (xs := []) (ys := [0])). exact O.
Qed.
Lemma null_pok : pok (null_aoa V W kind) [].
Proof.
  unfold pok, vok, null_aoa, lay. simpl. repeat (split; intros); try (exists 0; constructor); auto.
Qed.

Lemma each_ok (c : bool) a L L' (F : forall X : Type, bool -> buf X -> outcome (buf X)) :
  vok a L ->
  (forall (X : Type) (g : P -> X) t b, lay g t b L -> okb (t || c) (F X t b) (fun b' => lay g t b' L')) ->
  okb (allt || c) (each tv tw dual F a)
    (fun a' => numArrays a' = numArrays a /\ offs a' = offs a /\ szs a' = szs a /\ vok a' L').
Proof.
  intros [H1 H2] HF. unfold each.
  pose proof (HF _ fv tv _ H1) as [K1|[T K1]].
  2:{ right. rewrite K1. split; auto. apply orb_false_iff in T. destruct T as [T ->]. unfold allt. rewrite T. auto. }
  destruct K1 as (v & -> & K1). cbn [bind]. destruct dual eqn:D.
  - pose proof (HF _ fw tw _ (H2 eq_refl)) as [K2|[T K2]].
    2:{ right. rewrite K2. split; auto. apply orb_false_iff in T. destruct T as [T ->]. unfold allt. rewrite D, T. simpl. rewrite andb_false_r. auto. }
    destruct K2 as (e & -> & K2). left. apply oks_ok. simpl. split; auto. split; auto. split; auto. split; auto.
  - left. apply oks_ok. simpl. split; auto. split; auto. split; auto. split; auto. congruence.
Qed.
(** The same when no buffer can fault. *)
Lemma each_oks a L L' (F : forall X : Type, bool -> buf X -> outcome (buf X)) :
  vok a L ->
  (forall (X : Type) (g : P -> X) t b, lay g t b L -> oks (F X t b) (fun b' => lay g t b' L')) ->
  oks (each tv tw dual F a)
    (fun a' => numArrays a' = numArrays a /\ offs a' = offs a /\ szs a' = szs a /\ vok a' L').
Proof.
  intros [H1 H2] HF. unfold each.
  pose proof (HF _ fv tv _ H1) as K1.
  destruct K1 as (v & -> & K1). cbn [bind]. destruct dual eqn:D.
  - pose proof (HF _ fw tw _ (H2 eq_refl)) as K2.
    destruct K2 as (e & -> & K2). apply oks_ok. simpl. split; auto. split; auto. split; auto. split; auto.
  - apply oks_ok. simpl. split; auto. split; auto. split; auto. split; auto. congruence.
Qed.

(** * Reading offsets and sizes *)
Lemma offset_at a L k : iok a L -> k <= length L -> offset a k = Ok (total (firstn k L)).
Proof. intros (N & O & S) H. unfold offset. eapply holds_rd; [exact O|]. apply offsets_nth; auto. Qed.
Lemma size_at a L k r : iok a L -> nth_error L k = Some r -> size_ a k = Ok (length (fst r)).
Proof. intros (N & O & S) H. unfold size_. eapply holds_rd; [exact S|]. apply sizes_nth; auto. Qed.
Lemma check_array_at a L k : iok a L -> k < length L -> check_array chk a k = Ok tt.
Proof. intros (N & O & S) H. unfold check_array. apply check_if_ok. rewrite N. apply Nat.leb_gt; auto. Qed.
Lemma check_insert_at a L k : iok a L -> k <= length L -> check_array_insert chk a k = Ok tt.
Proof. intros (N & O & S) H. unfold check_array_insert. apply check_if_ok. rewrite N. apply Nat.ltb_ge; auto. Qed.
Lemma sizeOf_at a L k r : iok a L -> nth_error L k = Some r -> sizeOfArray chk a k = Ok (length (fst r)).
Proof.
  intros H N. unfold sizeOfArray. rewrite (check_array_at H) by (apply nth_error_Some; congruence).
  apply (size_at H N).
Qed.
Lemma total_firstn_S L k r : nth_error L k = Some r -> total (firstn (k + 1) L) = total (firstn k L) + wid r.
Proof.
  revert k; induction L as [|x L IH]; intros [|k] H; simpl in *; try discriminate.
  - injection H as ->. simpl. lia.
  - rewrite IH by auto. lia.
Qed.
Lemma capacityOf_at a L k r : iok a L -> nth_error L k = Some r -> capacityOfArray chk a k = Ok (wid r).
Proof.
  intros H N. assert (k < length L) by (apply nth_error_Some; congruence).
  unfold capacityOfArray. rewrite (check_array_at H) by auto. cbn [bind].
  rewrite (offset_at H) by lia. cbn [bind]. rewrite (offset_at H) by lia. cbn [bind].
  rewrite (total_firstn_S N). rewrite sub_ix_ok by lia. f_equal. lia.
Qed.

(** Updating a suffix of the offsets. *)
Lemma offs_loop (g : nat -> outcome nat) (h : nat -> nat) ys : forall a xs i,
  holds true (offs a) (xs ++ ys) -> i = length xs -> (forall y, In y ys -> g y = Ok (h y)) ->
  oks (for_up (length ys) (fun k a => o <- offset a k ;; n <- g o ;; put_offset a k n) i a)
      (fun a' => exists o, a' = set_offs o a /\ holds true o (xs ++ map h ys)).
Proof.
  induction ys as [|y ys IH]; intros a xs i H -> G; cbn [for_up length].
  - apply oks_ok. exists (offs a). split; auto. destruct a; reflexivity.
  - unfold offset at 1. rewrite (holds_rd (length xs) (v := y) H)
      by (rewrite nth_error_app2, Nat.sub_diag by lia; reflexivity).
    cbn [bind]. rewrite (G y) by (left; auto). cbn [bind]. unfold put_offset at 1.
    eapply oks_bind.
    + eapply oks_bind; [eapply assign_mid; eauto|]. intros o [Ho _].
      apply oks_ok with (P := fun a' => exists o, a' = set_offs o a /\ holds true o (xs ++ h y :: ys)). eauto.
    + intros a1 (o & -> & Ho). eapply oks_mono.
      * eapply IH with (xs := xs ++ [h y]); simpl; [rewrite <- app_assoc; exact Ho|len|].
        intros z Hz. apply G. right; auto.
      * intros a2 (o2 & -> & H2). exists o2. split; [reflexivity|]. simpl. rewrite <- app_assoc in H2. exact H2.
Qed.

(** * destroyValues *)
Lemma destroyValues_ok a A T : iok a (A ++ T) -> vok a (A ++ T) ->
  oks (destroyValues chk tv tw dual a (length A) (length A + length T))
      (fun a' => numArrays a' = numArrays a /\ offs a' = offs a /\ szs a' = szs a /\ vok a' A).
Proof.
  intros I E. unfold destroyValues.
  rewrite (check_insert_at I) by len. cbn [bind].
  rewrite (check_insert_at I) by len. cbn [bind].
  replace (length A + length T - length A) with (length T) by lia.
  eapply each_oks; [exact E|]. intros X g t b [k M]. rewrite flat_app in M.
  eapply oks_mono.
  - eapply rows_destroy with (p := flat g A) (T := T) (s := repeat LN k).
    + eapply mem_cast; [exact M|]. rewrite app_assoc. auto.
    + intros j r N b0. cbn beta.
      assert (j < length T) by (apply nth_error_Some; congruence).
      rewrite (offset_at I) by len. cbn [bind].
      rewrite (sizeOf_at (r := r) I); [|rewrite nth_error_app2 by lia; rewrite <- N; f_equal; lia]. cbn [bind].
      f_equal. rewrite flat_length, firstn_app, firstn_all2 by lia.
      rewrite total_app. f_equal. f_equal. f_equal. lia.
  - intros b' M'. exists (total T + k). rewrite repeat_app_add. exact M'.
Qed.
Lemma destroyAll_ok a L : numArrays a = length L -> (L <> [] -> iok a L) -> vok a L ->
  oks (destroyValues chk tv tw dual a 0 (numArrays a))
      (fun a' => numArrays a' = numArrays a /\ offs a' = offs a /\ szs a' = szs a /\ vok a' []).
Proof.
  intros N I E. destruct L as [|r L].
  - unfold destroyValues, check_array_insert. rewrite N. simpl.
    rewrite !check_if_ok by auto. cbn [bind].
    simpl in N. rewrite <- N. eapply (@each_oks a [] [] (fun (X : Type) (_ : bool) (b : buf X) => Ok b)); [exact E|]. intros. apply oks_ok. auto.
  - assert (I1 : iok a ([] ++ r :: L)) by (apply I; discriminate). pose proof (destroyValues_ok I1 E) as K. simpl length in K at 1 2. rewrite Nat.add_0_l, <- N in K. exact K.
Qed.

(** * reserve, reserveValues *)
Lemma reserve_ok a L n : aok a L -> oks (aoa_reserve chk kind a n) (fun a' => aok a' L).
Proof.
  intros [(N & O & Z) E]. unfold aoa_reserve. rewrite N.
  rewrite <- (offsets_length L 0) at 1.
  eapply oks_bind; [apply (BufferManipProofs.reserve_ok chk (kind := BMalloc) (n := n + 1) O); left; auto|]. intros o [Ho _].
  rewrite <- (sizes_length L) at 1.
  eapply oks_bind; [apply (BufferManipProofs.reserve_ok chk (kind := BMalloc) (n := n) Z); left; auto|]. intros z [Hz _].
  apply oks_ok. repeat (split; auto).
Qed.

Lemma reserveValues_ok a L n : aok a L -> okb (allt || nogap L) (reserveValues chk tv tw dual kind a n) (fun a' => aok a' L).
Proof.
  intros [I E]. pose proof I as (N & O & Z). unfold reserveValues. rewrite N, (offset_at I), firstn_all by auto. cbn [bind].
  eapply okb_mono; [eapply each_ok; [exact E|]|].
  - intros X g t b H. eapply okb_mono; [apply reserve_lay; exact H|]. intros b' [K _]. exact K.
  - intros a' (E1 & E2 & E3 & E4). split; auto. unfold iok. rewrite E1, E2, E3. auto.
Qed.

(** * setCapacityOfArray *)
Lemma setCapacity_ok a A r k B i c : aok a (A ++ (r, k) :: B) -> i = length A ->
  okb (allt || nogap (A ++ (r, k) :: B)) (setCapacityOfArray chk tv tw dual kind a i c)
      (fun a' => aok a' (A ++ (firstn c r, c - length r) :: B)).
Proof.
  intros [I E] ->. set (L := A ++ (r, k) :: B) in *.
  assert (N : nth_error L (length A) = Some (r, k)) by (unfold L; rewrite nth_error_app2, Nat.sub_diag by lia; reflexivity).
  assert (LL : length L = length A + 1 + length B) by (unfold L; len).
  pose proof I as (NA & O & Z).
  assert (OE : offsets 0 L = (starts 0 A ++ [total A]) ++ offsets (total A + wid (r, k)) B).
  { unfold L. rewrite offsets_app. rewrite <- app_assoc. reflexivity. }
  assert (TL : total L = total A + wid (r, k) + total B) by (unfold L; rewrite total_app; simpl; lia).
  assert (NB : forall j x, nth_error B j = Some x -> nth_error L (length A + 1 + j) = Some x).
  { intros j x H. unfold L. rewrite nth_error_app2 by lia.
    replace (length A + 1 + j - length A) with (S j) by lia. exact H. }
  assert (TB : forall j, total (firstn (length A + 1 + j) L) = total A + wid (r, k) + total (firstn j B)).
  { intros j. unfold L. rewrite firstn_app, firstn_all2 by lia.
    replace (length A + 1 + j - length A) with (S j) by lia. rewrite total_app. simpl. lia. }
  unfold setCapacityOfArray. rewrite (check_array_at I) by lia. cbn [bind].
  rewrite (capacityOf_at I N). cbn [bind].
  destruct (Nat.eqb_spec c (wid (r, k))) as [Ec|Nc].
  { left. apply oks_ok. split; auto. all: unfold wid in Ec; simpl in Ec; subst c;
      rewrite firstn_all2 by lia; replace (length r + k - length r) with k by lia; assumption. }
  destruct (Nat.ltb_spec (wid (r, k)) c) as [Lt|Ge].
  - (* increase *)
    set (inc := c - wid (r, k)). rewrite NA, (offset_at I), firstn_all by auto. cbn [bind].
    eapply okb_bind; [eapply each_ok with (L' := A ++ (r, k + inc) :: B); [exact E|]|].
    + intros X g t b H.
      eapply okb_bind; [apply dynamicReserve_lay; exact H|]. intros b1 [[k1 M1] C1]. left.
      pose proof (mem_length M1) as E1. rewrite app_length, repeat_length, flat_length in E1.
      replace (length L - 1 - length A) with (length B) by lia.
      eapply oks_mono.
      * eapply rows_up with (p := flat g (A ++ [(r, k)])) (T := B) (inc := inc) (s := repeat LN (k1 - inc)).
        -- eapply mem_cast; [exact M1|]. unfold L. rewrite !flat_app. simpl. rewrite app_nil_r.
           rewrite <- !app_assoc. do 3 f_equal. rewrite <- repeat_app_add. f_equal. lia.
        -- intros j x Hj b0. cbn beta. rewrite (sizeOf_at I (NB _ _ Hj)). cbn [bind].
           assert (j < length B) by (apply nth_error_Some; congruence).
           rewrite (offset_at I) by lia. cbn [bind]. rewrite TB. f_equal.
           rewrite flat_length, total_app. simpl. lia.
      * intros b2 M2. exists (k1 - inc). eapply mem_cast; [exact M2|].
        rewrite !flat_app. simpl. unfold cells. simpl. rewrite !app_nil_r, <- !app_assoc. do 2 f_equal.
        rewrite repeat_app_add, <- !app_assoc. auto.
    + intros a1 (E1 & E2 & E3 & E4). left. rewrite E1, NA.
      replace (length L - length A) with (length (offsets (total A + wid (r, k)) B)) by (rewrite offsets_length; lia).
      eapply oks_mono; [eapply (@offs_loop (fun y => Ok (y + inc)) (fun y => y + inc)) with (xs := starts 0 A ++ [total A])|].
      * rewrite E2, <- OE. exact O.
      * rewrite app_length, starts_length. reflexivity.
      * auto.
      * intros a2 (o & -> & Ho). cbn [wid fst snd] in *.
        assert (Ei : (firstn c r, c - length r) = (r, k + inc)).
        { unfold wid in *; simpl in *. rewrite firstn_all2 by lia. f_equal. unfold inc. unfold wid. simpl. lia. }
        rewrite Ei. split; [split; [|split]|].
        -- simpl. rewrite E1, NA, LL. len.
        -- simpl. eapply eq_rect with (P := fun l => holds true o l); [exact Ho|].
           rewrite offsets_shift, offsets_app, <- app_assoc. simpl. do 3 f_equal. unfold wid. simpl. lia.
        -- simpl. rewrite E3. eapply eq_rect with (P := fun l => holds true (szs a) l); [exact Z|].
           unfold L. rewrite !sizes_app. reflexivity.
        -- exact E4.
  - (* decrease *)
    assert (Wd : wid (r, k) = length r + k) by reflexivity.
    set (dec := wid (r, k) - c). rewrite (offset_at I) by lia. cbn [bind].
    rewrite (sizeOf_at I N). cbn [bind fst].
    replace (total (firstn (length A) L)) with (total A) by (unfold L; rewrite firstn_app_exact; auto).
    set (m := Nat.min (length r) c).
    assert (Lm : length (firstn c r) = m) by (rewrite firstn_length; unfold m; lia).
    assert (H1 : oks (put_size a (length A) m)
       (fun a1 => numArrays a1 = numArrays a /\ offs a1 = offs a /\ vals a1 = vals a /\ ents a1 = ents a /\
          holds true (szs a1) (sizes (A ++ (firstn c r, c - length r) :: B)))).
    { unfold put_size. eapply oks_bind.
      - eapply assign_mid with (xs := sizes A) (y := length r) (ys := sizes B); [|rewrite sizes_length; reflexivity].
        eapply eq_rect with (P := fun l => holds true (szs a) l); [exact Z|]. unfold L. rewrite sizes_app. reflexivity.
      - intros z [Hz _]. apply oks_ok. simpl. repeat (split; auto).
        rewrite sizes_app. simpl. rewrite Lm. exact Hz. }
    apply okb_bind with (P := fun a1 => numArrays a1 = numArrays a /\ offs a1 = offs a /\ vals a1 = vals a /\ ents a1 = ents a /\
          holds true (szs a1) (sizes (A ++ (firstn c r, c - length r) :: B))); [left; exact H1|].
    intros a1 (N1 & O1 & V1 & W1 & Z1).
    assert (E1 : vok a1 L) by (unfold vok in *; rewrite V1, W1; auto).
    eapply okb_bind; [left; eapply each_oks with (L' := A ++ (firstn c r, c - length r) :: B); [exact E1|]|].
    + intros X g t b [k1 M1].
      assert (M1' : mem t b ((flat g A ++ map LV (map g (firstn c r))) ++ map LV (map g (skipn c r)) ++
                      repeat LN k ++ flat g B ++ repeat LN k1)).
      { eapply mem_cast; [exact M1|]. unfold L. rewrite !flat_app. simpl. unfold cells at 1. simpl.
        rewrite <- (firstn_skipn c r) at 1. rewrite !map_app, <- !app_assoc. auto. }
      eapply oks_bind.
      * eapply destroy_ok with (m := map LV (map g (skipn c r))); [exact M1'| | |auto].
        -- rewrite app_length, flat_length, !map_length, Lm. auto.
        -- rewrite !map_length, skipn_length. unfold m. lia.
      * intros b2 M2. rewrite N1, NA. replace (length L - (length A + 1)) with (length B) by lia.
        eapply oks_mono.
        -- eapply rows_down with (p := flat g A ++ cells g (firstn c r, c - length r)) (T := B) (dec := dec) (s := repeat LN k1).
           ++ eapply mem_cast; [exact M2|]. unfold cells. simpl. rewrite <- !app_assoc. do 2 f_equal.
              rewrite !app_assoc. do 2 f_equal. rewrite <- !repeat_app_add. f_equal. unfold m, dec. lia.
           ++ intros j x Hj b0. cbn beta.
              assert (j < length B) by (apply nth_error_Some; congruence).
              assert (S1 : sizeOfArray chk a1 (length A + 1 + j) = Ok (length (fst x))).
              { unfold sizeOfArray, check_array. rewrite N1. rewrite check_if_ok by (apply Nat.leb_gt; lia). cbn [bind].
                unfold size_. eapply holds_rd; [exact Z1|]. apply sizes_nth. rewrite nth_error_app2 by lia.
                replace (length A + 1 + j - length A) with (S j) by lia. exact Hj. }
              rewrite S1. cbn [bind].
              assert (S2 : offset a1 (length A + 1 + j) = Ok (total (firstn (length A + 1 + j) L))).
              { unfold offset. rewrite O1. apply (offset_at I). lia. }
              rewrite S2. cbn [bind]. f_equal. rewrite TB, app_length, flat_length, cells_length. unfold wid at 2. cbn [fst snd].
              rewrite Lm. unfold m, dec. lia.
        -- intros b3 M3. exists (dec + k1). eapply mem_cast; [exact M3|].
           rewrite !flat_app. simpl. rewrite repeat_app_add, <- !app_assoc. auto.
    + intros a2 (E2 & O2 & Z2 & V2). left. rewrite E2, N1, NA.
      replace (length L - length A) with (length (offsets (total A + wid (r, k)) B)) by (rewrite offsets_length; lia).
      eapply oks_mono; [eapply (@offs_loop (fun y => sub_ix y dec) (fun y => y - dec)) with (xs := starts 0 A ++ [total A])|].
      * rewrite O2, O1, <- OE. exact O.
      * rewrite app_length, starts_length. reflexivity.
      * intros y Hy. apply sub_ix_ok.
        apply offsets_ge in Hy. unfold dec. lia.
      * intros a3 (o & -> & Ho). split; [split; [|split]|].
        -- simpl. rewrite E2, N1, NA, LL. len.
        -- simpl. eapply eq_rect with (P := fun l => holds true o l); [exact Ho|].
           rewrite offsets_app, <- app_assoc. simpl. do 2 f_equal.
           rewrite offsets_sub by (unfold dec; lia). f_equal. unfold wid at 2. cbn [fst snd]. rewrite Lm. unfold m, dec. lia.
        -- simpl. rewrite Z2. exact Z1.
        -- exact V2.
Qed.

End AoAP.
