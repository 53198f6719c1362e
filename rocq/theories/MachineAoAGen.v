(** Exactly when machine arithmetic overflows in the members of ArrayOfArrays which do not look at values, for
    rows of elements of a type [P] held in one or two buffers. *)
From Coq Require Import List Arith ZArith Lia Bool.
From Verif Require Import Base BaseProofs Mem MemProofs ArrayManipProofs BufferManip BufferManipProofs AoA AoASpec AoALayout AoAProofs AoAProofs2 AoAProofs3 AoAProofs4 MachineAoA MachineAoASpec MachineAoAProofs.
From Verif Require ArrayManip.
Import ListNotations.
Set Implicit Arguments.
Unset Strict Implicit.

Lemma fit_ok hi n : n <= hi -> fit hi n = Ok n.
Proof. intros H. unfold fit. destruct (Nat.leb_spec n hi); auto. lia. Qed.
Lemma fit_bad hi n : hi < n -> fit hi n = Fault FOverflow.
Proof. intros H. unfold fit. destruct (Nat.leb_spec n hi); auto. lia. Qed.
Lemma for_up_ext {S} (I : nat -> S -> Prop) n (g h : nat -> S -> outcome S) : forall i s, I i s ->
  (forall k s, i <= k < i + n -> I k s -> g k s = h k s /\ (forall s', h k s = Ok s' -> I (k + 1) s')) ->
  for_up n g i s = for_up n h i s.
Proof.
  induction n as [|n IH]; intros i s H0 H; cbn [for_up]; auto.
  destruct (H i s) as [E H1]; [lia|auto|]. rewrite E. destruct (h i s) as [s'| |f] eqn:Es; cbn [bind]; auto.
  apply IH; auto. intros k s2 Hk. apply H. lia.
Qed.
Lemma each_ext {V W} tv tw dual (F G : forall A, bool -> buf A -> outcome (buf A)) (a : aoa V W) :
  (forall A t b, F A t b = G A t b) -> each tv tw dual F a = each tv tw dual G a.
Proof. intros H. unfold each. rewrite H. destruct (G V tv (vals a)); cbn [bind]; auto. destruct dual; auto. rewrite H. auto. Qed.
Lemma each_keeps {V W} tv tw dual F (a a' : aoa V W) : each tv tw dual F a = Ok a' ->
  numArrays a' = numArrays a /\ offs a' = offs a.
Proof.
  unfold each. destruct (F V tv (vals a)); try discriminate. cbn [bind].
  destruct dual; [destruct (F W tw (ents a)); try discriminate|]; cbn [bind]; intros E; injection E as <-; auto.
Qed.
Lemma upd_other {X} (l : list X) i j x : j <> i -> nth_error (upd l i x) j = nth_error l j.
Proof.
  revert i j; induction l as [|y l IH]; intros i j H; simpl; auto.
  destruct i, j; simpl; auto; try congruence.
Qed.
Lemma assign_other {A} (b b' : buf A) i v j : assign true b i v = Ok b' -> j <> i -> rd b' j = rd b j.
Proof.
  intros E H. destruct (Nat.ltb_spec i (length b)) as [L|L].
  - rewrite (assign_true v L) in E. injection E as <-. unfold rd, aget. rewrite upd_other; auto.
  - exfalso. unfold assign, store, aget in E. destruct (nth_error b i) eqn:N; [|discriminate].
    assert (i < length b) by (apply nth_error_Some; congruence). lia.
Qed.
Lemma assign_same {A} (b b' : buf A) i v : assign true b i v = Ok b' -> rd b' i = Ok v.
Proof.
  intros E. destruct (Nat.ltb_spec i (length b)) as [L|L].
  - rewrite (assign_true v L) in E. injection E as <-. unfold rd, aget.
    assert (N : nth_error (upd b i (Obj v)) i = Some (Obj v)).
    { clear -L. revert i L; induction b as [|c b IH]; intros i L; simpl in *; [lia|]. destruct i; auto. apply IH. lia. }
    rewrite N. reflexivity.
  - exfalso. unfold assign, store, aget in E. destruct (nth_error b i) eqn:N; [|discriminate].
    assert (i < length b) by (apply nth_error_Some; congruence). lia.
Qed.

Section Gen.
Variable P V W : Type.
Variable fv : P -> V.
Variable fw : P -> W.
Variable hi : nat.
Variable chk tv tw dual : bool.
Notation kind := BMalloc.
Notation aoa := (aoa V W).
Notation row := (list P * nat)%type.
Notation rows := (list row).
Notation vok := (@vok P V W fv fw tv tw dual).
Notation aok := (@aok P V W fv fw tv tw dual).
Notation pok := (@pok P V W fv fw tv tw dual).
Notation iok := (@iok P V W).
Notation wid := (@wid P).
Implicit Types a : aoa.
Implicit Types L A B T : rows.

Lemma put_other a a' i n j : put_offset a i n = Ok a' -> j <> i -> offset a' j = offset a j.
Proof.
  unfold put_offset, offset. destruct (assign true (offs a) i n) as [o| |] eqn:E; try discriminate. cbn [bind].
  intros G H. injection G as <-. cbn [offs set_offs]. eapply assign_other; eauto.
Qed.
Lemma put_same a a' i n : put_offset a i n = Ok a' -> offset a' i = Ok n.
Proof.
  unfold put_offset, offset. destruct (assign true (offs a) i n) as [o| |] eqn:E; try discriminate. cbn [bind].
  intros G. injection G as <-. cbn [offs set_offs]. eapply assign_same; eauto.
Qed.

Lemma total_firstn_le k L : total (firstn k L) <= total L.
Proof. rewrite <- (firstn_skipn k L) at 2. rewrite total_app. lia. Qed.

Lemma m_cap_eq a i : i + 1 <= hi -> m_capacityOfArray hi chk a i = capacityOfArray chk a i.
Proof. intros H. unfold m_capacityOfArray, capacityOfArray. rewrite fit_ok by auto. reflexivity. Qed.

Lemma total_mid A B r k : total (A ++ (r, k) :: B) = total A + (length r + k) + total B.
Proof. rewrite total_app. simpl. unfold AoALayout.wid. simpl. lia. Qed.

(** The lemmas of [AoAProofs3] about one row, for rows of a type [P]. *)
Lemma gen_off a A r k B : iok a (A ++ (r, k) :: B) -> offset a (length A) = Ok (length (flat fv A)).
Proof. intros I. rewrite (offset_at I) by len. rewrite firstn_app_exact, flat_length by auto. reflexivity. Qed.
Lemma gen_nth A (x : row) B : nth_error (A ++ x :: B) (length A) = Some x.
Proof. rewrite nth_error_app2, Nat.sub_diag by lia. reflexivity. Qed.
Lemma gen_size a A r k B : iok a (A ++ (r, k) :: B) -> sizeOfArray chk a (length A) = Ok (length r).
Proof. intros I. apply (sizeOf_at chk I (gen_nth A (r, k) B)). Qed.
Lemma gen_check a A r k B : iok a (A ++ (r, k) :: B) -> check_array chk a (length A) = Ok tt.
Proof. intros I. apply (check_array_at chk I). len. Qed.

Section Row.
Variable A B : rows.
Variable r : list P.
Variable k : nat.
Notation L := (A ++ (r, k) :: B).
Hypothesis rows_ok : length L + 1 <= hi.
Hypothesis total_ok : total L <= hi.


Lemma m_setcap_eq a c : aok a L -> total A + c + total B <= hi ->
  m_setCapacityOfArray hi chk tv tw dual kind a (length A) c = setCapacityOfArray chk tv tw dual kind a (length A) c.
Proof.
  intros [I E] C. pose proof (total_mid A B r k) as TM. pose proof I as (N & O & Z).
  unfold m_setCapacityOfArray, setCapacityOfArray.
  rewrite (gen_check I). cbn [bind]. rewrite m_cap_eq by (rewrite app_length in rows_ok; simpl in rows_ok; lia).
  rewrite (capacityOf_at chk I (gen_nth A (r, k) B)). cbn [bind]. unfold AoALayout.wid. cbn [fst snd].
  destruct (c =? length r + k); auto. destruct (Nat.ltb_spec (length r + k) c) as [Lt|Ge].
  - rewrite N. rewrite (offset_at I (k := length L)), firstn_all by auto. cbn [bind].
    rewrite (@each_ext V W tv tw dual _ (fun (X : Type) (t : bool) (b : buf X) =>
       b1 <- BufferManip.dynamicReserve chk t kind b (total L) (total L + (c - (length r + k))) ;;
       for_down (length L - 1 - length A) (fun j b =>
              s <- sizeOfArray chk a (length A + 1 + j) ;; o <- offset a (length A + 1 + j) ;;
              ArrayManip.uninitializedShiftUp t b o s (c - (length r + k))) b1) a).
    2:{ intros X t b. rewrite fit_ok by lia. reflexivity. }
    match goal with |- bind ?m _ = _ => destruct m as [a1| |] eqn:E1 end; cbn [bind]; auto.
    destruct (each_keeps E1) as [N1 O1]. rewrite fit_ok by lia. cbn [bind].
    apply for_up_ext with (I := fun k a' => forall j, k <= j -> offset a' j = offset a j).
    + intros j _. unfold offset. rewrite O1. auto.
    + intros j a' Hj Hi. rewrite (Hi j) by lia. rewrite (offset_at I) by lia. cbn [bind].
      pose proof (total_firstn_le j L) as T1. rewrite fit_ok by lia. cbn [bind]. split; auto.
      intros a2 E2 m Hm. rewrite (put_other E2) by lia. apply Hi. lia.
  - rewrite (gen_off I). cbn [bind]. rewrite (gen_size I). cbn [bind].
    destruct (put_size a (length A) (Nat.min (length r) c)) as [a1| |] eqn:E1; cbn [bind]; auto.
    assert (N1 : numArrays a1 = numArrays a).
    { unfold put_size in E1. destruct (assign true (szs a) (length A) _); try discriminate. cbn [bind] in E1. injection E1 as <-. auto. }
    rewrite (@each_ext V W tv tw dual _ (fun (X : Type) (t : bool) (b : buf X) =>
            b1 <- ArrayManip.destroy t b (length (flat fv A) + Nat.min (length r) c) (length r - Nat.min (length r) c) ;;
            for_up (numArrays a1 - (length A + 1)) (fun k0 b =>
              s <- sizeOfArray chk a1 k0 ;; o <- offset a1 k0 ;;
              ArrayManip.uninitializedShiftDown t b o s (length r + k - c)) (length A + 1) b1) a1).
    2:{ intros X t b. rewrite fit_ok by (rewrite flat_length; lia). reflexivity. }
    match goal with |- bind ?m _ = _ => destruct m as [a2| |] eqn:E2 end; cbn [bind]; auto.
    destruct (each_keeps E2) as [N2 O2]. rewrite N2, N1, N. rewrite fit_ok by lia. reflexivity.
Qed.

Lemma m_setcap_over a c : aok a L -> hi < total A + c + total B ->
  m_setCapacityOfArray hi chk tv tw dual kind a (length A) c = Fault FOverflow.
Proof.
  intros [I E] C. pose proof (total_mid A B r k) as TM. pose proof I as (N & O & Z).
  unfold m_setCapacityOfArray.
  rewrite (gen_check I). cbn [bind]. rewrite m_cap_eq by (rewrite app_length in rows_ok; simpl in rows_ok; lia).
  rewrite (capacityOf_at chk I (gen_nth A (r, k) B)). cbn [bind]. unfold AoALayout.wid. cbn [fst snd].
  destruct (Nat.eqb_spec c (length r + k)); [lia|]. destruct (Nat.ltb_spec (length r + k) c) as [Lt|Ge]; [|lia].
  rewrite N. rewrite (offset_at I (k := length L)), firstn_all by auto. cbn [bind].
  unfold each. rewrite fit_bad by lia. reflexivity.
Qed.

Notation choose c m f := (m = if c <=? hi then f else Fault FOverflow).
Lemma m_setcap_exact a c : aok a L ->
  choose (total A + c + total B) (m_setCapacityOfArray hi chk tv tw dual kind a (length A) c) (setCapacityOfArray chk tv tw dual kind a (length A) c).
Proof.
  intros H. destruct (Nat.leb_spec (total A + c + total B) hi) as [C|C]; [eapply m_setcap_eq|eapply m_setcap_over]; eauto.
Qed.
Lemma m_erase_eq a : aok a L -> m_eraseArray hi chk tv tw dual kind a (length A) = eraseArray chk tv tw dual kind a (length A).
Proof.
  intros H. pose proof H as [I E]. pose proof (total_mid A B r k) as TM. unfold m_eraseArray, eraseArray.
  rewrite (gen_check I). cbn [bind]. rewrite (m_setcap_exact 0 H).
  destruct (Nat.leb_spec (total A + 0 + total B) hi); [|lia].
  destruct (setCapacity_ok chk 0 H eq_refl) as [(a1 & -> & [(N1 & _ & _) _])|[_ ->]]; cbn [bind]; auto.
  rewrite N1. rewrite !app_length in *. simpl in *. rewrite !fit_ok by lia. reflexivity.
Qed.
End Row.

(** ** The other members *)
Lemma m_push_eq a L : aok a L -> length L + 1 <= hi -> m_push_array hi chk kind a = push_array chk kind a.
Proof. intros [(N & _ & _) _] H. unfold m_push_array, push_array. rewrite N, fit_ok by auto. reflexivity. Qed.
Lemma m_open_eq a L i : aok a L -> i <= length L -> length L + 1 <= hi -> m_open_array hi chk kind a i = open_array chk kind a i.
Proof. intros [(N & _ & _) _] Hi H. unfold m_open_array, open_array. rewrite N, !fit_ok by lia. reflexivity. Qed.
Lemma m_reserve_eq a L n : aok a L -> length L + 1 <= hi -> n + 1 <= hi -> m_aoa_reserve hi chk kind a n = aoa_reserve chk kind a n.
Proof. intros [(N & _ & _) _] H Hn. unfold m_aoa_reserve, aoa_reserve. rewrite N, !fit_ok by lia. reflexivity. Qed.

Lemma total_closed L : total (closed L) <= total L.
Proof. induction L as [|[q j] L IH]; simpl; auto. unfold closed, AoALayout.wid in *. simpl. lia. Qed.
Lemma m_compress_eq a L : aok a L -> length L <= hi -> total L <= hi ->
  m_compress hi chk tv tw dual a = compress chk tv tw dual a.
Proof.
  intros H R T. destruct (compress_ok chk H) as (a' & E' & [I' V']). pose proof H as [(N & _ & _) _].
  pose proof (total_closed L) as TC. revert E'. unfold m_compress, compress. rewrite N.
  destruct (Nat.eqb_spec (length L) 0); auto.
  match goal with |- _ -> bind (for_up ?n ?g 0 a) _ = bind (for_up ?n ?h 0 a) _ =>
    assert (X : for_up n g 0 a = for_up n h 0 a); [|rewrite X; clear X] end.
  { apply for_up_ext with (I := fun _ _ => True); auto.
    intros j b Hj _. rewrite fit_ok by lia. cbn [bind]. split; [reflexivity|auto]. }
  match goal with |- bind ?m _ = _ -> _ => destruct m as [a1| |] eqn:E1 end; cbn [bind]; auto.
  destruct (offset a1 (numArrays a1 - 1)) as [o| |] eqn:Eo; cbn [bind]; auto.
  destruct (sizeOfArray chk a1 (numArrays a1 - 1)) as [s| |] eqn:Es; cbn [bind]; auto.
  intros Ep. pose proof (put_same Ep) as Q.
  assert (Nn : numArrays a' = numArrays a1).
  { unfold put_offset in Ep. destruct (assign true (offs a1) (numArrays a1) (o + s)); try discriminate. cbn [bind] in Ep. injection Ep as <-. auto. }
  pose proof I' as (N' & _ & _). rewrite <- Nn, N' in Q. rewrite (offset_at I' (k := length (closed L))) in Q by auto.
  injection Q as Q. rewrite firstn_all in Q. rewrite fit_ok by lia. reflexivity.
Qed.

Lemma m_scan_eq caps : forall a i acc, acc + list_sum caps <= hi -> m_scan_into hi a i acc caps = scan_into a i acc caps.
Proof.
  induction caps as [|c caps IH]; intros a i acc H; cbn [m_scan_into scan_into]; auto. simpl in H. rewrite fit_ok by lia.
  cbn [bind]. destruct (put_offset a i (acc + c)); cbn [bind]; auto. apply IH. lia.
Qed.
Lemma m_scan_over caps : forall a xs i acc, acc <= hi -> hi < acc + list_sum caps ->
  holds true (offs a) (xs ++ [acc]) -> i = length xs + 1 -> length xs + 1 + length caps <= length (offs a) ->
  m_scan_into hi a i acc caps = Fault FOverflow.
Proof.
  induction caps as [|c caps IH]; intros a xs i acc Ha H Ho -> C; cbn [m_scan_into]; simpl in H; [lia|].
  destruct (Nat.leb_spec (acc + c) hi) as [F|F]; [rewrite fit_ok by auto|rewrite fit_bad by auto; reflexivity].
  cbn [bind]. unfold put_offset at 1.
  destruct (@assign_push _ (offs a) (xs ++ [acc]) (length xs + 1) (acc + c) Ho) as (o & E & Ho2 & Lo); [len|simpl in C; lia|].
  rewrite E. cbn [bind]. eapply IH with (xs := xs ++ [acc]); auto; [lia|len|]. cbn [offs set_offs]. rewrite Lo. simpl in C. len.
Qed.

Lemma m_caps_eq a L caps : aok a L -> length L + 1 <= hi -> length caps + 1 <= hi -> list_sum caps <= hi ->
  m_resizeFromCapacities hi chk tv tw dual kind a caps = resizeFromCapacities chk tv tw dual kind a caps.
Proof.
  intros H R R2 S. pose proof (aok_pok H) as HP. pose proof HP as (N & O & Z & E). unfold m_resizeFromCapacities, resizeFromCapacities.
  destruct (@destroyAll_ok P V W fv fw chk tv tw dual a L N (pok_iok HP) E) as (a1 & -> & N1 & _). cbn [bind].
  rewrite N1, N. destruct (BufferManip.reserve chk true kind (szs a1) (length L) (length caps)); cbn [bind]; auto.
  match goal with |- bind ?m _ = _ => destruct m as [s2| |] end; cbn [bind]; auto.
  assert (Q : (if length L =? 0 then Ok 0 else fit hi (length L + 1)) = Ok (if length L =? 0 then 0 else length L + 1)).
  { destruct (length L =? 0); auto. apply fit_ok. auto. }
  rewrite Q. cbn [bind]. rewrite fit_ok by auto. cbn [bind].
  destruct (BufferManip.reserve chk true kind (offs a1) _ (length caps + 1)); cbn [bind]; auto.
  match goal with |- bind ?m _ = _ => destruct m as [a5| |] end; cbn [bind]; auto.
  rewrite m_scan_eq by auto. reflexivity.
Qed.
Lemma m_caps_over a L caps : aok a L -> length L + 1 <= hi -> length caps + 1 <= hi -> hi < list_sum caps ->
  m_resizeFromCapacities hi chk tv tw dual kind a caps = Fault FOverflow.
Proof.
  intros H0 R R2 S. pose proof (aok_pok H0) as H. pose proof H as (N & O & Z & E). unfold m_resizeFromCapacities.
  destruct (@destroyAll_ok P V W fv fw chk tv tw dual a L N (pok_iok H) E) as (a1 & -> & N1 & O1 & Z1 & E1). cbn [bind].
  rewrite N1, O1, Z1, N.
  rewrite <- (sizes_length L) at 1.
  destruct (BufferManipProofs.reserve_ok chk (kind := BMalloc) (n := length caps) Z (or_introl eq_refl)) as (s & -> & Hs & Ls). cbn [bind].
  destruct (@push_zeros (length caps) s [] 0) as (s2 & -> & Hs2 & _); auto; [apply holds_forget with (ys := sizes L); exact Hs|simpl; lia|].
  cbn [bind].
  assert (Q : (if length L =? 0 then Ok 0 else fit hi (length L + 1)) = Ok (length (match L with [] => [] | _ => offsets 0 L end))).
  { destruct L; auto. change (length (p :: L) =? 0) with false. cbv iota. rewrite fit_ok by auto. rewrite offsets_length. reflexivity. }
  rewrite Q. cbn [bind]. rewrite fit_ok by auto. cbn [bind].
  destruct (BufferManipProofs.reserve_ok chk (kind := BMalloc) (n := length caps + 1) O (or_introl eq_refl)) as (o & -> & Ho & Lo). cbn [bind].
  assert (Ho' : holds true o []) by (eapply holds_forget with (xs := []); exact Ho).
  unfold put_offset at 1. cbn [offs set_szs set_offs].
  destruct (@assign_push _ o [] 0 0 Ho') as (o2 & -> & Ho2 & Lo2); [reflexivity|lia|]. cbn [bind].
  rewrite (@m_scan_over caps _ [] 1 0); simpl; auto; lia.
Qed.

Lemma m_loop_over base cap m : forall ys a xs i,
  base <= hi -> hi < base + (i + m - 1) * cap -> (base + (i - 1) * cap <= hi) -> 0 < i ->
  holds true (offs a) (xs ++ ys) -> length ys = m -> numArrays a + i = length xs ->
  for_up m (fun i a => p <- fit hi (i * cap) ;; e <- fit hi (base + p) ;; put_offset a (numArrays a + i) e) i a = Fault FOverflow.
Proof.
  induction m as [|m IH]; intros ys a xs i Hb H Hp H0 Ho Ly Lx; cbn [for_up].
  { replace (i + 0 - 1) with (i - 1) in H by lia. lia. }
  destruct (Nat.leb_spec (i * cap) hi) as [F|F]; [rewrite fit_ok by auto|rewrite fit_bad by auto; reflexivity]. cbn [bind].
  destruct (Nat.leb_spec (base + i * cap) hi) as [F2|F2]; [rewrite fit_ok by auto|rewrite fit_bad by auto; reflexivity]. cbn [bind].
  destruct ys as [|y ys]; [discriminate|]. unfold put_offset at 1. rewrite Lx.
  destruct (@assign_mid _ (offs a) xs y ys (length xs) (base + i * cap) Ho eq_refl) as (o & -> & Ho2 & _). cbn [bind].
  eapply IH with (xs := xs ++ [base + i * cap]) (ys := ys); auto.
  - replace (i + 1 + m - 1) with (i + Datatypes.S m - 1) by lia. auto.
  - replace (i + 1 - 1) with i by lia. auto.
  - lia.
  - cbn [offs set_offs]. rewrite <- app_assoc. exact Ho2.
  - cbn [numArrays set_offs]. rewrite app_length. simpl. lia.
Qed.

Lemma total_resized L n cap : length L <= n -> total (resized L n cap) = total L + (n - length L) * cap.
Proof. intros H. unfold resized. rewrite firstn_all2 by lia. rewrite total_app, total_repeat. reflexivity. Qed.
Lemma total_resized_le L n cap : n <= length L -> total (resized L n cap) <= total L.
Proof. intros H. unfold resized. replace (n - length L) with 0 by lia. simpl. rewrite app_nil_r. apply total_firstn_le. Qed.

Lemma m_resize_exact a L n cap : pok a L -> (L <> [] -> length L + 1 <= hi) -> n + 1 <= hi -> total L <= hi ->
  m_resizeImpl hi chk tv tw dual kind a n cap =
  if total (resized L n cap) <=? hi then resizeImpl chk tv tw dual kind a n cap else Fault FOverflow.
Proof.
  intros H R Rn T. pose proof H as (N & O & Z & E). unfold m_resizeImpl, resizeImpl. rewrite N.
  assert (Q : (if length L =? 0 then Ok 0 else fit hi (length L + 1)) = Ok (if length L =? 0 then 0 else length L + 1)).
  { destruct L; auto. change (length (p :: L) =? 0) with false. cbv iota. apply fit_ok, R. discriminate. }
  rewrite Q. cbn [bind]. destruct (Nat.ltb_spec n (length L)) as [Lt|Ge].
  - pose proof (@total_resized_le L n cap). destruct (Nat.leb_spec (total (resized L n cap)) hi); [|lia].
    rewrite fit_ok by auto. reflexivity.
  - assert (G : (if length L =? 0 then Ok 0 else offset a (length L)) = Ok (total L)).
    { destruct L as [|r L']; [reflexivity|]. change (length (r :: L') =? 0) with false. cbv iota.
      rewrite (@offset_at P V W a (r :: L')), firstn_all; auto. apply (pok_iok H); auto. discriminate. }
    rewrite G. cbn [bind]. rewrite fit_ok by auto. cbn [bind]. rewrite total_resized by auto.
    assert (E1 : (if length L =? 0 then 0 else length L + 1) = length (match L with [] => [] | _ => offsets 0 L end))
        by (destruct L; simpl; auto; rewrite offsets_length; lia).
    rewrite E1.
    destruct (BufferManipProofs.resize_ok chk (kind := BMalloc) (n := n + 1) (total L) O (or_introl eq_refl)) as (o & -> & Ho & _). cbn [bind].
    rewrite <- (sizes_length L).
    destruct (BufferManipProofs.resize_ok chk (kind := BMalloc) (n := n) 0 Z (or_introl eq_refl)) as (z & -> & Hz & _). cbn [bind].
    rewrite sizes_length. cbn [numArrays set_szs set_offs]. rewrite N.
    assert (Ho' : holds true o (offsets 0 L ++ repeat (total L) (n - length L))).
    { eapply holds_eq; [exact Ho|]. unfold list_resize. destruct L as [|r L'].
      - simpl. rewrite !Nat.sub_0_r, Nat.add_1_r. reflexivity.
      - rewrite offsets_length. rewrite firstn_all2 by (rewrite offsets_length; lia). f_equal. f_equal. lia. }
    destruct (Nat.ltb_spec 0 cap) as [Hc|Hc].
    2:{ assert (cap = 0) by lia. subst cap. rewrite Nat.mul_0_r, Nat.add_0_r. destruct (Nat.leb_spec (total L) hi); [reflexivity|lia]. }
    destruct (Nat.leb_spec (total L + (n - length L) * cap) hi) as [F|F].
    + match goal with |- bind (bind (for_up ?m ?g 1 ?x) _) _ = bind (bind (for_up ?m ?h 1 ?x) _) _ =>
        assert (X : for_up m g 1 x = for_up m h 1 x); [|rewrite X; reflexivity] end.
      apply for_up_ext with (I := fun _ _ => True); auto. intros j b Hj _.
      assert (j * cap <= (n - length L) * cap) by (apply Nat.mul_le_mono_r; lia).
      rewrite !fit_ok by lia. cbn [bind]. rewrite fit_ok by lia. split; [reflexivity|auto].
    + rewrite (@m_loop_over (total L) cap (n - length L) (repeat (total L) (n - length L)) _ (offsets 0 L) 1); auto.
      * replace (1 + (n - length L) - 1) with (n - length L) by lia. auto.
      * simpl. lia.
      * apply repeat_length.
      * cbn [numArrays set_szs set_offs]. rewrite offsets_length, N. reflexivity.
Qed.

Lemma m_new_exact n cap : n + 1 <= hi ->
  m_new_aoa V W hi chk tv tw dual kind n cap =
  if n * cap <=? hi then new_aoa V W chk tv tw dual kind n cap else Fault FOverflow.
Proof.
  intros H. unfold m_new_aoa, new_aoa.
  rewrite (m_resize_exact (L := []) cap (@null_pok P V W fv fw tv tw dual)); try (simpl; auto; lia); try congruence.
  rewrite total_resized by (simpl; lia). simpl. rewrite Nat.sub_0_r. reflexivity.
Qed.

End Gen.
