(** Histories of calls on an array of arrays. *)
From Coq Require Import List Arith ZArith Lia Bool.
From Verif Require Import Base BaseProofs Mem MemProofs ArrayManipProofs BufferManip BufferManipProofs AoA AoASpec AoALayout AoAProofs AoAProofs2 AoAProofs3.
From Verif Require ArrayManip.
Import ListNotations.
Set Implicit Arguments.
Unset Strict Implicit.

(** Abort, or the one fault. *)
Definition badb {A} (t : bool) (m : outcome A) : Prop := m = Abort \/ (t = false /\ m = Fault FMove).

Section Lists.
Variable X : Type.
Implicit Types l : list X.
Lemma put_mid l y z l' i : i = length l -> put_at (l ++ y :: l') i z = l ++ z :: l'.
Proof.
  intros ->. unfold put_at. rewrite firstn_app_exact by auto. f_equal. f_equal.
  rewrite skipn_app, skipn_all2 by lia. replace (length l + 1 - length l) with 1 by lia. reflexivity.
Qed.
Lemma ins_mid l z l' i : i = length l -> insert_at (l ++ l') i z = l ++ z :: l'.
Proof. intros ->. unfold insert_at. rewrite firstn_app_exact, skipn_app_exact by auto. reflexivity. Qed.
Lemma rem_mid l z l' i : i = length l -> remove_at (l ++ z :: l') i = l ++ l'.
Proof.
  intros ->. unfold remove_at. rewrite firstn_app_exact by auto. f_equal.
  rewrite skipn_app, skipn_all2 by lia. replace (length l + 1 - length l) with 1 by lia. reflexivity.
Qed.
Lemma split_le l j : j <= length l -> exists xs ys, l = xs ++ ys /\ length xs = j.
Proof. intros H. exists (firstn j l), (skipn j l). rewrite firstn_skipn, firstn_length. split; auto. lia. Qed.
Lemma split_lt l j : j < length l -> exists xs y ys, l = xs ++ y :: ys /\ length xs = j.
Proof.
  intros H. destruct (nth_error l j) as [y|] eqn:E; [|apply nth_error_None in E; lia].
  apply nth_error_split in E. destruct E as (xs & ys & -> & Lx). eauto.
Qed.
Lemma nth_mid l y l' i d : i = length l -> nth i (l ++ y :: l') d = y.
Proof. intros ->. rewrite app_nth2, Nat.sub_diag by lia. reflexivity. Qed.
Lemma skipn_mid l xs l' j n : length l = j -> length xs = n -> skipn (j + n) (l ++ xs ++ l') = l'.
Proof.
  intros <- <-. rewrite app_assoc. apply skipn_app_exact. rewrite app_length. auto.
Qed.
End Lists.

Lemma grown_ge2 s k inc : s + inc <= grown s (s + k) inc.
Proof. unfold grown. destruct (Nat.ltb_spec (s + k) (s + inc)); lia. Qed.

Section AoAP4.
Variable V W : Type.
Variable chk tv tw : bool.
Notation kind := BMalloc.
Notation aoa := (aoa V W).
Notation row := (list V * nat)%type.
Notation rows := (list row).
Variable fw : V -> W.
Variable dflt : V.
Notation idv := (fun v : V => v).
Notation aok := (@aok V V W idv fw tv tw false).
Notation iok := (@iok V V W).
Notation astep := (@astep V W chk tv tw false kind dflt).
Notation arun := (@arun V W chk tv tw false kind dflt).
Implicit Types a : aoa.
Implicit Types L A B T : rows.

Definition arep a (M : list (list V)) (K : list nat) : Prop :=
  exists L, aok a L /\ map fst L = M /\ map (@wid V) L = K.

Lemma row_at L i r : nth_error (map fst L) i = Some r -> exists A k B, L = A ++ (r, k) :: B /\ length A = i.
Proof.
  intros H. rewrite nth_error_map in H. destruct (nth_error L i) as [[r' k]|] eqn:E; [|discriminate].
  simpl in H. injection H as ->. apply nth_error_split in E. destruct E as (A & B & -> & LA). eauto 6.
Qed.

Ltac mid := first [ rewrite put_mid by len | rewrite ins_mid by len | rewrite rem_mid by len ].

Lemma rep_put a A r k B r' k' :
  aok a (A ++ (r', k') :: B) ->
  arep a (put_at (map fst (A ++ (r, k) :: B)) (length A) r') (put_at (map (@wid V) (A ++ (r, k) :: B)) (length A) (length r' + k')).
Proof.
  intros H. eexists. split; [exact H|]. rewrite !map_app. simpl. rewrite !put_mid by len. split; reflexivity.
Qed.
Lemma rep_put_same a A r k B r' k' :
  aok a (A ++ (r', k') :: B) -> length r' + k' = length r + k ->
  arep a (put_at (map fst (A ++ (r, k) :: B)) (length A) r') (map (@wid V) (A ++ (r, k) :: B)).
Proof.
  intros H E. eexists. split; [exact H|]. rewrite !map_app. simpl. rewrite !put_mid by len. split; [reflexivity|].
  f_equal. f_equal. unfold wid. simpl. auto.
Qed.

(** Aborts *)
Lemma check_array_bad L a i : chk = true -> iok a L -> length L <= i -> check_array chk a i = Abort.
Proof.
  intros -> (N & _ & _) H. unfold check_array, check_if. rewrite N.
  destruct (Nat.leb_spec (length L) i); [reflexivity|lia].
Qed.
Lemma check_insert_bad L a i : chk = true -> iok a L -> length L < i -> check_array_insert chk a i = Abort.
Proof.
  intros -> (N & _ & _) H. unfold check_array_insert, check_if. rewrite N.
  destruct (Nat.ltb_spec (length L) i); [reflexivity|lia].
Qed.
Lemma size_bad L a i : chk = true -> iok a L -> length L <= i -> sizeOfArray chk a i = Abort.
Proof. intros C I H. unfold sizeOfArray. rewrite (check_array_bad C I H). reflexivity. Qed.
Lemma check2_bad1 L a i j : chk = true -> iok a L -> length L <= i -> check_array2 chk a i j = Abort.
Proof.
  intros -> (N & _ & _) H. unfold check_array2, error_if. rewrite N.
  destruct (Nat.leb_spec (length L) i); [reflexivity|lia].
Qed.
Lemma check2_bad2 A r k B a j : chk = true -> iok a (A ++ (r, k) :: B) -> length r <= j -> check_array2 chk a (length A) j = Abort.
Proof.
  intros -> I H. unfold check_array2. pose proof I as (N & _ & _).
  rewrite error_if_ok by (rewrite N; apply Nat.leb_gt; len). cbn [bind].
  rewrite (size_at I (row_nth A (r, k) B)). cbn [bind fst]. unfold error_if.
  destruct (Nat.leb_spec (length r) j); [reflexivity|lia].
Qed.
Lemma insert2_bad A r k B a j : chk = true -> iok a (A ++ (r, k) :: B) -> length r < j -> check_array_insert2 chk a (length A) j = Abort.
Proof.
  intros -> I H. unfold check_array_insert2. pose proof I as (N & _ & _).
  rewrite error_if_ok by (rewrite N; apply Nat.leb_gt; len). cbn [bind].
  rewrite (sizeOf_at true I (row_nth A (r, k) B)). cbn [bind fst]. unfold error_if.
  destruct (Nat.ltb_spec (length r) j); [reflexivity|lia].
Qed.
Lemma nogap_ins A B c : (c || nogap (A ++ ([], 0) :: B) = c || nogap (A ++ B))%bool.
Proof. unfold nogap. rewrite !forallb_app. reflexivity. Qed.
Lemma nogap_snoc L c : (c || nogap (L ++ [([], 0)]) = c || nogap L)%bool.
Proof. rewrite nogap_ins, app_nil_r. reflexivity. Qed.
Lemma okb_cast {X} t t' (m : outcome X) Q : t = t' -> okb t m Q -> okb t' m Q.
Proof. intros ->. auto. Qed.
Lemma full_nogap L : full (map fst L) (map (@wid V) L) = nogap L.
Proof.
  unfold full, nogap. induction L as [|[r k] L IH]; simpl; auto. rewrite IH. f_equal. unfold wid. simpl.
  destruct (Nat.eqb_spec (length r) (length r + k)); destruct (Nat.eqb_spec k 0); auto; lia.
Qed.
Lemma okb_bad {X Y} t (m : outcome X) (Q : X -> Prop) (f : X -> outcome Y) :
  okb t m Q -> (forall x, Q x -> badb t (f x)) -> badb t (bind m f).
Proof. intros [(x & -> & q)|[T ->]] H; simpl; auto. right; auto. Qed.
Lemma badb_cast {X} t t' (m : outcome X) : t = t' -> badb t m -> badb t' m.
Proof. intros ->. auto. Qed.

Lemma step_ok c a M K : arep a M K ->
  match vec_step dflt c M with
  | Some M' => okb (tv || full M K) (astep c a) (fun a' => arep a' M' (cap_step c M K))
  | None => chk = true -> badb (tv || full M K) (astep c a)
  end.
Proof.
  pose proof (allt_tv tv tw) as AT.
  intros (L & H & <- & <-). pose proof H as [I E].
  assert (G : (allt tv tw false || nogap L)%bool = (tv || full (map fst L) (map (@wid V) L))%bool) by (rewrite AT, full_nogap; auto).
  destruct c as [n cap|caps|n|n| |n|vs|i vs|i|i v|i vs|i j v|i j vs|i j n|i n v|i|i c|i j v]; simpl vec_step; cbn [AoA.astep cap_step].
  - apply (okb_cast G). eapply okb_mono; [apply resize_ok, aok_pok; exact H|]. intros a' H'. eexists. split; [exact H'|].
    unfold resized, resized_to. rewrite !map_app, !map_length, !firstn_map.
    assert (R : forall (Y : Type) (f : row -> Y) x q, map f (repeat x q) = repeat (f x) q) by (induction q; simpl; congruence).
    rewrite !R. split; reflexivity.
  - left. eapply oks_mono; [eapply resizeFromCapacities_ok, aok_pok; exact H|]. intros a' H'. eexists. split; [exact H'|].
    unfold empties. rewrite !map_map. simpl. split; auto. unfold wid. simpl. apply map_id.
  - left. eapply oks_mono; [apply reserve_ok; exact H|]. intros a' H'. eexists. split; [exact H'|]. auto.
  - apply (okb_cast G). eapply okb_mono; [apply reserveValues_ok; exact H|]. intros a' H'. eexists. split; [exact H'|]. auto.
  - left. eapply oks_mono; [apply compress_ok; exact H|]. intros a' H'. eexists. split; [exact H'|].
    unfold closed. rewrite !map_map. split; auto. apply map_ext. intros [r k]. unfold wid. simpl. lia.
  - apply (okb_cast G). unfold appendArray.
    eapply okb_bind; [left; apply push_ok; exact H|]. intros a1 H1.
    destruct H1 as [I1 E1]. pose proof I1 as (N1 & _ & _). rewrite N1.
    replace (length (L ++ [([], 0)]) - 1) with (length L) by len.
    apply (okb_cast (nogap_snoc L _)). eapply okb_mono; [apply resizeArray_ok; split; [exact I1|exact E1]|]. intros a' H'. eexists. split; [exact H'|].
    rewrite !map_app. unfold resized_to, wid. simpl. rewrite firstn_nil, Nat.sub_0_r. simpl. split; auto.
    f_equal. f_equal. rewrite repeat_length. lia.
  - apply (okb_cast G). unfold appendArrayFrom.
    eapply okb_bind; [left; apply push_ok; exact H|]. intros a1 H1.
    destruct H1 as [I1 E1]. pose proof I1 as (N1 & _ & _). rewrite N1.
    replace (length (L ++ [([], 0)]) - 1) with (length L) by len.
    apply (okb_cast (nogap_snoc L _)). eapply okb_mono; [apply append_ok; split; [exact I1|exact E1]|]. intros a' H'. eexists. split; [exact H'|].
    rewrite !map_app. unfold wid. simpl. split; auto. f_equal. f_equal. unfold grown. simpl.
    destruct (Nat.ltb_spec 0 (length vs)); lia.
  - rewrite map_length. destruct (Nat.leb_spec i (length L)) as [Hi|Hi].
    + destruct (split_le Hi) as (A & B & -> & <-). apply (okb_cast G). unfold insertArray.
      eapply okb_bind; [left; apply open_ok; [exact H|reflexivity]|]. intros a1 H1.
      apply (okb_cast (nogap_ins A B _)). eapply okb_mono; [apply append_ok; exact H1|]. intros a' H'. eexists. split; [exact H'|].
      rewrite !map_app. simpl. rewrite !ins_mid by len. split; auto. f_equal. f_equal.
      unfold wid, grown. simpl. destruct (Nat.ltb_spec 0 (length vs)); lia.
    + intros C. left. unfold insertArray, open_array. rewrite (check_insert_bad C I Hi). reflexivity.
  - rewrite map_length. destruct (Nat.ltb_spec i (length L)) as [Hi|Hi].
    + destruct (split_lt Hi) as (A & x & B & -> & <-). apply (okb_cast G).
      eapply okb_mono; [eapply erase_ok; [exact H|reflexivity]|]. intros a' H'. eexists. split; [exact H'|].
      rewrite !map_app. simpl. rewrite !rem_mid by len. auto.
    + intros C. left. unfold eraseArray. rewrite (check_array_bad C I Hi). reflexivity.
  - unfold on_row, cap_grow. destruct (nth_error (map fst L) i) as [r|] eqn:Er.
    + destruct (row_at Er) as (A & k & B & -> & <-). apply (okb_cast G).
      eapply okb_mono; [apply emplaceBack_ok; exact H|]. intros a' H'.
      assert (X1 : nth (length A) (map fst (A ++ (r, k) :: B)) [] = r) by (rewrite map_app; apply nth_mid; len).
      assert (X2 : nth (length A) (map (@wid V) (A ++ (r, k) :: B)) 0 = length r + k) by (rewrite map_app; apply nth_mid; len).
      rewrite X1, X2. eapply eq_rect with (P := fun z => arep _ _ (put_at _ _ z)); [apply rep_put; exact H'|].
      pose proof (grown_ge2 (length r) k 1). len.
    + intros C. left. apply nth_error_None in Er. rewrite map_length in Er.
      unfold aoa_emplaceBack, dynamicallyGrowArray. rewrite (size_bad C I Er). reflexivity.
  - unfold on_row, cap_grow. destruct (nth_error (map fst L) i) as [r|] eqn:Er.
    + destruct (row_at Er) as (A & k & B & -> & <-). apply (okb_cast G).
      eapply okb_mono; [apply append_ok; exact H|]. intros a' H'.
      assert (X1 : nth (length A) (map fst (A ++ (r, k) :: B)) [] = r) by (rewrite map_app; apply nth_mid; len).
      assert (X2 : nth (length A) (map (@wid V) (A ++ (r, k) :: B)) 0 = length r + k) by (rewrite map_app; apply nth_mid; len).
      rewrite X1, X2. eapply eq_rect with (P := fun z => arep _ _ (put_at _ _ z)); [apply rep_put; exact H'|].
      pose proof (grown_ge2 (length r) k (length vs)). len.
    + intros C. left. apply nth_error_None in Er. rewrite map_length in Er.
      unfold aoa_appendToArray, dynamicallyGrowArray. rewrite (size_bad C I Er). reflexivity.
  - unfold on_row, cap_grow. destruct (nth_error (map fst L) i) as [r|] eqn:Er.
    + destruct (row_at Er) as (A & k & B & -> & <-). 
      destruct (Nat.leb_spec j (length r)) as [Hj|Hj].
      * destruct (split_le Hj) as (xs & ys & -> & <-).
        apply (okb_cast G). eapply okb_mono; [apply emplace_ok; exact H|]. intros a' H'.
        assert (X1 : nth (length A) (map fst (A ++ (xs ++ ys, k) :: B)) [] = xs ++ ys) by (rewrite map_app; apply nth_mid; len).
        assert (X2 : nth (length A) (map (@wid V) (A ++ (xs ++ ys, k) :: B)) 0 = length (xs ++ ys) + k) by (rewrite map_app; apply nth_mid; len).
        rewrite X1, X2, ins_mid by auto. eapply eq_rect with (P := fun z => arep _ _ (put_at _ _ z)); [apply rep_put; exact H'|].
        pose proof (grown_ge2 (length (xs ++ ys)) k 1). len.
      * intros C. apply (badb_cast G). eapply okb_bad; [apply grow_ok; exact H|]. intros a1 [I1 E1]. left.
        unfold v_emplace. rewrite (insert2_bad C I1 Hj). reflexivity.
    + intros C. left. apply nth_error_None in Er. rewrite map_length in Er.
      unfold aoa_emplace, dynamicallyGrowArray. rewrite (size_bad C I Er). reflexivity.
  - unfold on_row, cap_grow. destruct (nth_error (map fst L) i) as [r|] eqn:Er.
    + destruct (row_at Er) as (A & k & B & -> & <-). 
      destruct (Nat.leb_spec j (length r)) as [Hj|Hj].
      * destruct (split_le Hj) as (xs & ys & -> & <-).
        apply (okb_cast G). eapply okb_mono; [apply insert_ok; exact H|]. intros a' H'.
        assert (X1 : nth (length A) (map fst (A ++ (xs ++ ys, k) :: B)) [] = xs ++ ys) by (rewrite map_app; apply nth_mid; len).
        assert (X2 : nth (length A) (map (@wid V) (A ++ (xs ++ ys, k) :: B)) 0 = length (xs ++ ys) + k) by (rewrite map_app; apply nth_mid; len).
        rewrite X1, X2, firstn_app_exact, skipn_app_exact by auto.
        eapply eq_rect with (P := fun z => arep _ _ (put_at _ _ z)); [apply rep_put; exact H'|].
        pose proof (grown_ge2 (length (xs ++ ys)) k (length vs)). len.
      * intros C. apply (badb_cast G). eapply okb_bad; [apply grow_ok; exact H|]. intros a1 [I1 E1]. left.
        unfold v_insertIntoArray. rewrite (insert2_bad C I1 Hj). reflexivity.
    + intros C. left. apply nth_error_None in Er. rewrite map_length in Er.
      unfold aoa_insertIntoArray, dynamicallyGrowArray. rewrite (size_bad C I Er). reflexivity.
  - unfold on_row. destruct (nth_error (map fst L) i) as [r|] eqn:Er.
    + destruct (row_at Er) as (A & k & B & -> & <-).
      destruct (Nat.ltb_spec j (length r)) as [Hj|Hj]; [destruct (Nat.leb_spec (j + n) (length r)) as [Hn|Hn]|]; cbn [andb].
      * assert (Hj' : j <= length r) by lia.
        destruct (split_le Hj') as (xs & rs & -> & <-).
        assert (Hr : n <= length rs) by (rewrite app_length in Hn; lia).
        destruct (split_le Hr) as (ds & ys & -> & <-). left.
        eapply oks_mono; [eapply eraseFrom_ok; [exact H|reflexivity|rewrite !app_length in Hj; lia]|]. intros a' H'.
        rewrite firstn_app_exact by auto. rewrite skipn_mid by auto.
        eapply rep_put_same; [exact H'|]. rewrite !app_length. lia.
      * intros C. left. unfold AoA.eraseFromArray. rewrite (row_check2 chk I Hj). cbn [bind].
        rewrite (row_off I). cbn [bind]. rewrite (row_size chk I). cbn [bind].
        unfold ArrayManip.erase, ArrayManip.check_bounds. rewrite check_if_ok by (apply Nat.leb_gt; lia). cbn [bind].
        unfold check_if. rewrite C. destruct (Nat.eqb_spec n 0); [lia|]. destruct (Nat.leb_spec (length r) (j + n - 1)); [reflexivity|lia].
      * intros C. left. unfold AoA.eraseFromArray. rewrite (check2_bad2 C I Hj). reflexivity.
    + intros C. left. apply nth_error_None in Er. rewrite map_length in Er.
      unfold AoA.eraseFromArray. rewrite (check2_bad1 _ C I Er). reflexivity.
  - unfold on_row. destruct (nth_error (map fst L) i) as [r|] eqn:Er.
    + destruct (row_at Er) as (A & k & B & -> & <-). apply (okb_cast G).
      eapply okb_mono; [apply resizeArray_ok; exact H|]. intros a' H'.
      assert (X2 : nth (length A) (map (@wid V) (A ++ (r, k) :: B)) 0 = length r + k) by (rewrite map_app; apply nth_mid; len).
      rewrite X2. eapply eq_rect with (P := fun z => arep _ _ (put_at _ _ z)); [apply rep_put; exact H'|].
      unfold resized_to. rewrite app_length, firstn_length, repeat_length. lia.
    + intros C. left. apply nth_error_None in Er. rewrite map_length in Er.
      unfold resizeArray. rewrite (check_array_bad C I Er). reflexivity.
  - unfold on_row. destruct (nth_error (map fst L) i) as [r|] eqn:Er.
    + destruct (row_at Er) as (A & k & B & -> & <-). apply (okb_cast G).
      eapply okb_mono; [apply resizeArray_ok; exact H|]. intros a' H'.
      unfold resized_to in H'. simpl in H'. eapply rep_put_same; [exact H'|]. simpl. lia.
    + intros C. left. apply nth_error_None in Er. rewrite map_length in Er.
      unfold resizeArray. rewrite (check_array_bad C I Er). reflexivity.
  - unfold on_row. destruct (nth_error (map fst L) i) as [r|] eqn:Er.
    + destruct (row_at Er) as (A & k & B & -> & <-). apply (okb_cast G).
      eapply okb_mono; [eapply setCapacity_ok; [exact H|reflexivity]|]. intros a' H'.
      eapply eq_rect with (P := fun z => arep _ _ (put_at _ _ z)); [apply rep_put; exact H'|].
      rewrite firstn_length. lia.
    + intros C. left. apply nth_error_None in Er. rewrite map_length in Er.
      unfold setCapacityOfArray. rewrite (check_array_bad C I Er). reflexivity.
  - unfold on_row. destruct (nth_error (map fst L) i) as [r|] eqn:Er.
    + destruct (row_at Er) as (A & k & B & -> & <-).
      destruct (Nat.ltb_spec j (length r)) as [Hj|Hj].
      * destruct (split_lt Hj) as (xs & y & ys & -> & <-). left.
        eapply oks_mono; [eapply set_ok; exact H|]. intros a' H'.
        rewrite (put_mid (l := xs)) by auto. eapply rep_put_same; [exact H'|]. rewrite !app_length. simpl. lia.
      * intros C. left. unfold AoA.aoa_set, slot. rewrite (check2_bad2 C I Hj). reflexivity.
    + intros C. left. apply nth_error_None in Er. rewrite map_length in Er.
      unfold AoA.aoa_set, slot. rewrite (check2_bad1 _ C I Er). reflexivity.
Qed.

Lemma run_ok h : forall a M K, arep a M K ->
  match vec_run dflt h M with
  | Some M' => okb (tv || always_full dflt h M K) (arun h a) (fun a' => arep a' M' (cap_run dflt h M K))
  | None => chk = true -> badb (tv || always_full dflt h M K) (arun h a)
  end.
Proof.
  induction h as [|c h IH]; intros a M K H; cbn [vec_run AoA.arun cap_run always_full].
  - left. apply oks_ok. exact H.
  - pose proof (step_ok c H) as S. destruct (vec_step dflt c M) as [M1|].
    + assert (Q : forall b : bool, (tv || full M K = false -> tv || full M K && b = false)%bool).
      { intros b. destruct tv, (full M K); simpl; auto; discriminate. }
      destruct S as [(a1 & E1 & H1)|[T E1]].
      * rewrite E1. cbn [bind]. specialize (IH _ _ _ H1). destruct (vec_run dflt h M1).
        -- destruct IH as [R|[T R]]; [left; exact R|right; split; auto].
           destruct tv, (always_full dflt h M1 (cap_step c M K)); simpl in *; try discriminate. apply andb_false_r.
        -- intros C. destruct (IH C) as [R|[T R]]; [left; exact R|right; split; auto].
           destruct tv, (always_full dflt h M1 (cap_step c M K)); simpl in *; try discriminate. apply andb_false_r.
      * rewrite E1. cbn [bind]. destruct (vec_run dflt h M1); [right|intros _; right]; auto.
    + intros C. destruct (S C) as [E1|[T E1]]; rewrite E1; [left|right]; auto. rewrite andb_true_r. auto.
Qed.

Lemma new_ok n cap : oks (new_aoa V W chk tv tw false kind n cap) (fun a => arep a (repeat [] n) (repeat cap n)).
Proof.
  unfold new_aoa. apply okb_true.
  pose proof (@resize_ok V V W idv fw chk tv tw false (null_aoa V W kind) [] n cap (@null_pok V V W idv fw tv tw false)) as R.
  simpl nogap in R. rewrite orb_true_r in R.
  eapply okb_mono; [exact R|]. intros a H. eexists. split; [exact H|].
  unfold resized. rewrite firstn_nil. simpl. rewrite Nat.sub_0_r.
  assert (Q : forall (Y : Type) (f : row -> Y) x q, map f (repeat x q) = repeat (f x) q) by (induction q; simpl; congruence).
  rewrite !Q. split; reflexivity.
Qed.

Lemma dtor_ok a M K : arep a M K -> aoa_dtor chk tv tw false kind a = Ok tt.
Proof.
  intros (L & H & _). unfold aoa_dtor. destruct (free_ok chk (aok_pok H)) as (a' & -> & _). reflexivity.
Qed.

(** ** What can be observed *)
Lemma rep_num a M K : arep a M K -> numArrays a = length M.
Proof. intros (L & [(N & _ & _) _] & <- & _). rewrite N, map_length. auto. Qed.
Lemma rep_size a M K i r : arep a M K -> nth_error M i = Some r -> sizeOfArray chk a i = Ok (length r).
Proof.
  intros (L & [I E] & <- & _) N. destruct (row_at N) as (A & k & B & -> & <-). apply (row_size chk I).
Qed.
Lemma rep_cap a M K i k : arep a M K -> nth_error K i = Some k -> capacityOfArray chk a i = Ok k.
Proof.
  intros (L & [I E] & _ & <-) N. rewrite nth_error_map in N. destruct (nth_error L i) as [x|] eqn:Ex; [|discriminate].
  simpl in N. injection N as <-. apply (capacityOf_at chk I Ex).
Qed.
Lemma rep_at a M K i r j v : arep a M K -> nth_error M i = Some r -> nth_error r j = Some v -> aoa_at chk a i j = Ok v.
Proof.
  intros (L & H & <- & _) N J. destruct (row_at N) as (A & k & B & -> & <-).
  destruct (aok_row H) as [q Mm]. destruct H as [I E].
  assert (j < length r) by (apply nth_error_Some; congruence).
  unfold aoa_at, slot. rewrite (row_check2 chk I) by auto. cbn [bind]. rewrite (row_off I). cbn [bind].
  eapply rd_nth; [exact Mm|]. rewrite nth_error_app2 by lia.
  replace (length (flat idv A) + j - length (flat idv A)) with j by lia.
  rewrite nth_error_app1 by len. apply map_nth_error. exact J.
Qed.
Lemma rep_lens a M K : arep a M K -> length K = length M /\ forall i r k, nth_error M i = Some r -> nth_error K i = Some k -> length r <= k.
Proof.
  intros (L & _ & <- & <-). rewrite !map_length. split; auto. intros i r k N1 N2.
  rewrite nth_error_map in N1, N2. destruct (nth_error L i) as [[r' k']|]; [|discriminate].
  simpl in *. injection N1 as <-. injection N2 as <-. unfold wid. simpl. lia.
Qed.
(** Where the inner arrays are. *)
Lemma total_sum L : total L = list_sum (map (@wid V) L).
Proof. induction L; simpl; auto. Qed.
Lemma rep_offset a M K i : arep a M K -> i <= length M -> offset a i = Ok (list_sum (firstn i K)).
Proof.
  intros (L & [I E] & <- & <-) H. rewrite map_length in H. rewrite (offset_at I H), firstn_map, total_sum. auto.
Qed.
Lemma rep_vcap a M K : arep a M K -> list_sum K <= valueCapacity a.
Proof. intros (L & [I [E _]] & _ & <-). rewrite <- total_sum. apply (lay_cap E). Qed.

End AoAP4.
