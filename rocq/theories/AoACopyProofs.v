(** Copy assignment of arrays of arrays. *)
From Coq Require Import List Arith ZArith Lia Bool.
From Verif Require Import Base BaseProofs Mem MemProofs ArrayManipProofs BufferManip BufferManipProofs AoA AoALayout AoAProofs AoACopy.
From Verif Require CopyMoveProofs.
From Verif Require ArrayManip.
Import ListNotations.
Set Implicit Arguments.
Unset Strict Implicit.

(** * Integer buffers: what copyInto leaves behind the copied values *)
Lemma destroy_true {A} n : forall (b : buf A) p i, p + i + n <= length b -> for_up n (fun i b => destroy1 true b (p + i)) i b = Ok b.
Proof.
  induction n as [|n IH]; intros b p i H; cbn [for_up]; [reflexivity|]. unfold destroy1, aget at 1.
  destruct (nth_error b (p + i)) as [c|] eqn:E; [|apply nth_error_None in E; lia]. cbn [bind]. apply IH. lia.
Qed.
Lemma resize_shrink {A} chk (b : buf A) vs n d : holds true b vs -> n <= length vs -> resize chk true BMalloc b (length vs) n d = Ok b.
Proof.
  intros H Hn. pose proof (holds_cap H) as C. unfold resize. rewrite check_ok by (eapply holds_cap; exact H). cbn [bind].
  unfold reserve. rewrite check_ok by (eapply holds_cap; exact H). cbn [bind]. unfold capacity. destruct (Nat.ltb_spec (length b) n); [lia|]. cbn [bind].
  unfold ArrayManip.resize, ArrayManip.destroy. rewrite destroy_true by lia. cbn [bind]. replace (n - length vs) with 0 by lia. reflexivity.
Qed.
Lemma copy_over {A} (src : buf A) ws : holds true src ws -> forall b vs, holds true b vs -> length ws <= length vs ->
  oks (for_up (length ws) (fun i b => v <- rd src i ;; assign true b i v) 0 b) (fun b' => holds true b' (ws ++ skipn (length ws) vs)).
Proof.
  intros Hs b vs Hb Le. eapply oks_mono; [apply (@oks_for_up (buf A) (fun i b => holds true b (firstn i ws ++ skipn i vs)))|].
  - exact Hb.
  - intros i b' Hi Hb'. rewrite Nat.add_1_r. assert (Hi0 : i < length ws) by lia. destruct (split_nth ws Hi0) as (x & y & z & -> & Lx).
    assert (Hi' : i < length vs) by lia. destruct (split_nth vs Hi') as (x' & y' & z' & -> & Lx').
    rewrite (@holds_rd _ true src _ i y Hs) by (rewrite nth_error_app2, <- Lx, Nat.sub_diag by lia; reflexivity). cbn [bind].
    rewrite <- Lx in Hb' at 1. rewrite firstn_app_exact in Hb' by reflexivity. rewrite <- Lx', skipn_app_exact in Hb' by reflexivity.
    eapply oks_mono; [eapply assign_mid; [exact Hb'|congruence]|]. intros b2 [H2 _].
    replace (firstn (S i) (x ++ y :: z)) with (x ++ [y]).
    2:{ rewrite <- Lx. replace (x ++ y :: z) with ((x ++ [y]) ++ z) by (rewrite <- app_assoc; reflexivity).
        replace (S (length x)) with (length (x ++ [y])) by len. symmetry. apply firstn_app_exact; reflexivity. }
    replace (skipn (S i) (x' ++ y' :: z')) with z'.
    2:{ rewrite <- Lx'. replace (x' ++ y' :: z') with ((x' ++ [y']) ++ z') by (rewrite <- app_assoc; reflexivity).
        replace (S (length x')) with (length (x' ++ [y'])) by len. symmetry. apply skipn_app_exact; reflexivity. }
    rewrite <- app_assoc. exact H2.
  - intros b' H. cbn [plus] in H. rewrite firstn_all in H. exact H.
Qed.
Lemma copyInto_stale {A} chk (dst src : buf A) vs ws d : holds true dst vs -> holds true src ws ->
  oks (copyInto chk true BMalloc dst (length vs) src (length ws) d) (fun b' => holds true b' (ws ++ skipn (length ws) vs)).
Proof.
  intros Hd Hs. destruct (Nat.le_gt_cases (length ws) (length vs)) as [Le|Gt].
  - unfold copyInto. rewrite check_ok by (eapply holds_cap; exact Hd). cbn [bind]. rewrite check_ok by (eapply holds_cap; exact Hs). cbn [bind].
    rewrite (resize_shrink chk d Hd Le). cbn [bind]. apply copy_over; auto.
  - eapply oks_mono; [eapply copyInto_ok; [exact Hd|exact Hs|left; reflexivity]|]. intros b' [H _]. rewrite skipn_all2 by lia. rewrite app_nil_r. exact H.
Qed.

(** * Copying rows *)
Section Rows.
Variable P V : Type.
Variable f : P -> V.
Variable t : bool.
Notation mem := (@mem V t).
Notation row := (list P * nat)%type.

Lemma build_row (src : buf V) vs : forall b p s o i, mem b (p ++ repeat LN (length vs) ++ s) -> o + i = length p ->
  (forall j v, nth_error vs j = Some v -> rd src (o + i + j) = Ok v) ->
  oks (for_up (length vs) (fun j b => v <- rd src (o + j) ;; construct t b (o + j) v) i b) (fun b' => mem b' (p ++ map LV vs ++ s)).
Proof.
  induction vs as [|v vs IH]; intros b p s o i M E R; cbn [for_up length map app repeat] in *; [apply oks_ok; exact M|].
  pose proof (R 0 v eq_refl) as R0. rewrite Nat.add_0_r in R0. rewrite R0. cbn [bind].
  eapply oks_bind; [eapply construct_ok; [exact M|exact E|exact Logic.I]|]. intros b1 M1.
  eapply oks_mono; [eapply (IH b1 (p ++ [LV v])); [eapply mem_cast; [exact M1|]; rewrite <- app_assoc; reflexivity|rewrite app_length; cbn; lia|]|].
  - intros j w Hj. replace (o + (i + 1) + j) with (o + i + S j) by lia. apply R. exact Hj.
  - intros b2 M2. eapply mem_cast; [exact M2|]. rewrite <- app_assoc. reflexivity.
Qed.
Lemma build_rows (src : buf V) T : forall b p s i fn, mem b (p ++ repeat LN (total T) ++ s) ->
  (forall k r, nth_error T k = Some r -> (forall j v, nth_error (map f (fst r)) j = Some v -> rd src (length p + total (firstn k T) + j) = Ok v) /\
     forall b, fn (i + k) b = copy_row t src (length p + total (firstn k T)) (length (fst r)) b) ->
  oks (for_up (length T) fn i b) (fun b' => mem b' (p ++ flat f T ++ s)).
Proof.
  induction T as [|[r k] T IH]; intros b p s i fn M F; cbn [for_up length].
  - apply oks_ok. exact M.
  - destruct (F 0 (r, k) eq_refl) as [R0 F0]. rewrite Nat.add_0_r in F0. rewrite F0. cbn [firstn total fst] in *.
    unfold copy_row. rewrite <- (map_length f r). eapply oks_bind.
    + eapply (@build_row src (map f r) b p (repeat LN k ++ repeat LN (total T) ++ s)); [eapply mem_cast; [exact M|]|lia|].
      * unfold wid. cbn [fst snd]. rewrite map_length, !repeat_app_add, <- !app_assoc. reflexivity.
      * intros j v Hj. replace (length p + 0 + 0 + j) with (length p + 0 + j) by lia. apply R0. exact Hj.
    + intros b1 M1. eapply oks_mono; [eapply (IH b1 (p ++ map LV (map f r) ++ repeat LN k) s); [eapply mem_cast; [exact M1|]; rewrite !app_assoc; reflexivity|]|].
      * intros j q Hj. destruct (F (S j) q Hj) as [Rj Fj]. cbn [firstn total] in Rj, Fj.
        assert (Eq : length (p ++ map (@LV V) (map f r) ++ repeat LN k) + total (firstn j T) = length p + (wid (r, k) + total (firstn j T))).
        { unfold wid. cbn [fst snd]. len. }
        rewrite Eq. split; [exact Rj|]. intros b2. replace (i + S j) with (i + 1 + j) in Fj by lia. apply Fj.
      * intros b2 M2. eapply mem_cast; [exact M2|]. unfold flat. cbn [flat_map]. unfold cells at 2. cbn [fst snd]. rewrite !app_assoc. reflexivity.
Qed.
(** Reading the source. *)
Lemma lay_rd (b : buf V) L k r j v : lay f t b L -> nth_error L k = Some r -> nth_error (map f (fst r)) j = Some v ->
  rd b (total (firstn k L) + j) = Ok v.
Proof.
  intros [n M] Hk Hj. destruct (nth_error_split L k Hk) as (A & B & -> & <-). rewrite firstn_app_exact by reflexivity.
  destruct (nth_error_split _ _ Hj) as (x & y & E & <-). unfold flat in M. rewrite flat_map_app in M. cbn [flat_map] in M. unfold cells at 2 in M. rewrite E in M.
  rewrite map_app in M. cbn [map] in M. eapply rd_ok with (p := flat_map (cells f) A ++ map (@LV V) x).
  - eapply mem_cast; [exact M|]. rewrite <- !app_assoc. cbn [app]. reflexivity.
  - rewrite app_length, map_length. change (flat_map (cells f) A) with (flat f A). rewrite flat_length. reflexivity.
Qed.
End Rows.

(** * reserve on a buffer without values *)
Section Bare.
Variable V : Type.
Variable chk t : bool.
(** Enough room, nothing to move, or slots which may be copied without holding objects. *)
Definition roomy (cap m n : nat) : bool := ((n <=? cap) || (m =? 0) || (t && (m <=? cap)))%bool.
Lemma move_oob k : forall (d s : buf V) i, t = true -> i <= length s -> length s < i + k -> length s < length d ->
  for_up k (fun i ds => let '(d, s) := ds in '(c, s') <- take t s (0 + i) ;; d' <- place t d (0 + i) c ;; Ok (d', s')) i (d, s) = Fault FOob.
Proof.
  intros d s i Et. revert d s i. induction k as [|k IH]; intros d s i Hi Hk Hd; [lia|]. cbn [for_up]. unfold take, aget. cbn [plus].
  destruct (nth_error s i) as [c|] eqn:E.
  - assert (i < length s) by (apply nth_error_Some; congruence). cbn [bind]. rewrite Et. cbn [bind]. unfold place, aget.
    destruct (nth_error d i) as [c'|] eqn:E'; [|apply nth_error_None in E'; lia]. cbn [bind].
    assert (G : aset d i c = Ok (upd d i c)) by (unfold aset; destruct (Nat.ltb_spec i (length d)); [auto|lia]). rewrite G.
    replace (match c' with Obj _ => Ok (upd d i c) | _ => Ok (upd d i c) end) with (Ok (upd d i c)) by (destruct c'; reflexivity). cbn [bind].
    rewrite Et in IH. apply IH; [lia|lia|rewrite upd_length; lia].
  - reflexivity.
Qed.
Lemma raw_release (b : buf V) : mem t b (repeat LN (length b)) -> release t b = Ok tt.
Proof.
  intros M. unfold release. destruct t; [reflexivity|]. cbn [orb]. replace (forallb (@is_raw V) b) with true; [reflexivity|]. symmetry. apply forallb_forall.
  intros c Hc. apply In_nth_error in Hc. destruct Hc as [i Hi]. assert (In c b) by (eapply nth_error_In; exact Hi).
  clear -M Hi. revert i Hi. remember (repeat LN (length b)) as l eqn:El. assert (F : Forall (fun x => x = LN) l) by (subst l; apply Forall_forall; intros x Hx; eapply repeat_spec; exact Hx).
  clear El. induction M as [|x y b l R M IH]; intros i Hi; [destruct i; discriminate|]. inversion F; subst. destruct i as [|i]; [|eapply IH; eauto]. injection Hi as ->.
  destruct R as [R|R]; [discriminate|]. subst c. reflexivity.
Qed.
Lemma bare_reserve (b : buf V) m n : mem t b (repeat LN (length b)) -> (m <= length b \/ length b < n) ->
  if roomy (length b) m n then oks (reserve chk t BMalloc b m n) (fun b' => mem t b' (repeat LN (length b')) /\ n <= length b')
  else reserve chk t BMalloc b m n = if (chk && (length b <? m))%bool then Abort else if (0 <? length b) && negb t then Fault FMove else Fault FOob.
Proof.
  intros M Hm. unfold reserve, check, check_if, capacity. unfold roomy.
  destruct (Nat.leb_spec n (length b)) as [Hn|Hn].
  { cbn [orb]. destruct (Nat.ltb_spec (length b) m); [lia|]. rewrite andb_false_r. cbn [bind]. destruct (Nat.ltb_spec (length b) n); [lia|]. apply oks_ok. auto. }
  cbn [orb]. destruct (Nat.ltb_spec (length b) n); [|lia]. unfold setCapacity, check, check_if, capacity.
  destruct (Nat.eqb_spec m 0) as [->|Nm].
  { cbn [orb]. destruct (Nat.ltb_spec (length b) 0); [lia|]. rewrite andb_false_r. cbn [bind]. unfold reallocate. rewrite Nat.min_0_r.
    unfold ArrayManip.uninitializedMove, ArrayManip.destroy. cbn [for_up bind]. rewrite raw_release by exact M. cbn [bind]. apply oks_ok. rewrite repeat_length. split; [|lia].
    apply mem_repeat_raw. }
  cbn [orb]. destruct (andb t (m <=? length b)) eqn:Er.
  { apply andb_true_iff in Er. destruct Er as [Et Er]. apply Nat.leb_le in Er. destruct (Nat.ltb_spec (length b) m); [lia|]. rewrite andb_false_r. cbn [bind].
    assert (G : gap_free (repeat (@LN V) m)) by (apply Forall_forall; intros x Hx; apply repeat_spec in Hx; subst; discriminate).
    assert (M' : mem t b (repeat LN m ++ repeat LN (length b - m))) by (eapply mem_cast; [exact M|]; rewrite <- repeat_app_add; f_equal; lia).
    assert (Hl : length (repeat (@LN V) m) <= n) by (rewrite repeat_length; lia).
    pose proof (reallocate_lay G M' Hl) as K. rewrite repeat_length in K. destruct K as [K|[X _]]; [|congruence].
    eapply oks_mono; [exact K|]. intros b' Mb. pose proof (mem_length Mb) as Lb. rewrite app_length, !repeat_length in Lb. split; [|lia].
    eapply mem_cast; [exact Mb|]. rewrite <- repeat_app_add. f_equal. lia. }
  destruct (andb chk (length b <? m)) eqn:Ec; [reflexivity|]. cbn [bind]. unfold reallocate.
  replace (ArrayManip.uninitializedMove t (repeat Raw n) 0 (Nat.min n m) b 0) with (if ((0 <? length b) && negb t)%bool then @Fault (buf V * buf V) FMove else Fault FOob).
  { destruct ((0 <? length b) && negb t)%bool; reflexivity. }
  symmetry. unfold ArrayManip.uninitializedMove. destruct t eqn:Et; cbn [negb].
  - rewrite andb_false_r. cbn [andb] in Er. apply Nat.leb_gt in Er. pose proof move_oob as Q. rewrite Et in Q. apply Q; auto; [lia|lia|rewrite repeat_length; lia].
  - rewrite andb_true_r. destruct (Nat.min n m) as [|k] eqn:Ek; [lia|]. cbn [for_up]. unfold take, aget. cbn [plus]. destruct b as [|c b].
    + cbn. reflexivity.
    + cbn [length repeat] in M. inversion M as [|? ? ? ? R ? E1 E2]; subst. destruct R as [R|R]; [discriminate|]. subst c. cbn. reflexivity.
Qed.
End Bare.

(** * setEqualTo *)
Lemma for_up_keeps {A} (I : A -> Prop) f : (forall i s s', f i s = Ok s' -> I s -> I s') ->
  forall n i s s', for_up n f i s = Ok s' -> I s -> I s'.
Proof.
  intros H n. induction n as [|n IH]; intros i s s' E Hs; cbn [for_up] in E; [injection E as <-; exact Hs|].
  destruct (f i s) as [s1| |] eqn:E1; try discriminate. cbn [bind] in E. eapply IH; [exact E|]. eapply H; eassumption.
Qed.
Lemma destroy1_length {A} t (b b' : buf A) i : destroy1 t b i = Ok b' -> length b' = length b.
Proof.
  unfold destroy1, aset, aget. destruct (nth_error b i) as [c|]; [|discriminate]. cbn [bind]. destruct t; [intros E; injection E as <-; reflexivity|].
  destruct c; [discriminate| |]; (destruct (i <? length b); [|discriminate]; intros E; injection E as <-; apply upd_length).
Qed.

Lemma upd_same {A} (l : list A) : forall i x, nth_error l i = Some x -> upd l i x = l.
Proof. induction l as [|y l IH]; intros [|i] x E; try discriminate; cbn in *; [congruence|]. f_equal. apply IH. exact E. Qed.
Lemma construct_same {A} (b : buf A) i v : rd b i = Ok v -> construct true b i v = Ok b.
Proof.
  unfold rd, construct, place, aget. destruct (nth_error b i) as [c|] eqn:Ec; [|discriminate]. cbn [bind]. destruct c; try discriminate. intros Rv. injection Rv as ->.
  unfold aset. assert (i < length b) by (apply nth_error_Some; congruence). destruct (Nat.ltb_spec i (length b)); [|lia]. rewrite upd_same by exact Ec. reflexivity.
Qed.

Section Copy.
Variable P V W : Type.
Variable fv : P -> V.
Variable fw : P -> W.
Variable chk tv tw dual : bool.
Notation aoa := (aoa V W).
Notation row := (list P * nat)%type.
Notation rows := (list row).
Notation aok := (@aok P V W fv fw tv tw dual).
Notation pok := (@pok P V W fv fw tv tw dual).
Notation vok := (@vok P V W fv fw tv tw dual).
Implicit Types a : aoa.
Implicit Types L T : rows.

Lemma destroyValues_length a i j a' : destroyValues chk tv tw dual a i j = Ok a' ->
  length (vals a') = length (vals a) /\ length (ents a') = length (ents a).
Proof.
  unfold destroyValues, each. intros E. destruct (check_array_insert chk a i) as [[]| |]; try discriminate. cbn [bind] in E. destruct (check_array_insert chk a j) as [[]| |]; try discriminate. cbn [bind] in E.
  assert (G : forall A t (b b' : buf A), for_up (j - i) (fun i b => o <- offset a i ;; s <- sizeOfArray chk a i ;; ArrayManip.destroy t b o s) i b = Ok b' -> length b' = length b).
  { intros A t b b' H. eapply (@for_up_keeps (buf A) (fun b2 => length b2 = length b)); [|exact H|reflexivity]. clear. intros i s s' E Es. cbv beta in E.
    destruct (offset a i) as [o| |]; try discriminate. cbn [bind] in E. destruct (sizeOfArray chk a i) as [n| |]; try discriminate. cbn [bind] in E.
    eapply (@for_up_keeps (buf A) (fun b2 => length b2 = length b)); [|exact E|exact Es]. clear. intros i s s' E Es. apply destroy1_length in E. congruence. }
  destruct (for_up _ _ i (vals a)) as [v| |] eqn:Ev; try discriminate. cbn [bind] in E. apply G in Ev. destruct dual.
  - destruct (for_up _ _ i (ents a)) as [e| |] eqn:Ee; try discriminate. injection E as <-. apply G in Ee. cbn. auto.
  - injection E as <-. cbn. auto.
Qed.

(** The number of values setEqualTo believes to be in the destination. *)
Definition stale L0 L : nat := if length L0 <=? length L then total (firstn (length L0) L) else total L0.

Lemma prefix_ok a L0 src L : pok a L0 -> aok src L ->
  exists a2, numArrays a2 = length L0 /\ holds true (offs a2) (offsets 0 L) /\ holds true (szs a2) (sizes L) /\ vok a2 [] /\
    length (vals a2) = length (vals a) /\ length (ents a2) = length (ents a) /\
    setEqualTo chk tv tw dual a src =
      (a3 <- each tv tw dual (fun A t b => BufferManip.reserve chk t BMalloc b (stale L0 L) (total L)) a2 ;;
       let a4 := set_num (length L) a3 in
       v <- copy_rows chk a4 (copy_row tv (vals src)) (vals a4) ;;
       e <- (if dual then copy_rows chk a4 (copy_row tw (ents src)) (ents a4) else Ok (ents a4)) ;;
       Ok (mkAoA (numArrays a4) (offs a4) (szs a4) v e)).
Proof.
  intros (N & O & Z & E) Hs. pose proof Hs as [I' _]. pose proof I' as (N' & O' & Z'). unfold setEqualTo. rewrite N', (offset_at I'), firstn_all by lia. cbn [bind].
  assert (D : oks (destroyValues chk tv tw dual a 0 (numArrays a)) (fun a' => numArrays a' = numArrays a /\ offs a' = offs a /\ szs a' = szs a /\ vok a' [])).
  { eapply destroyAll_ok; [exact N| |exact E]. intros Ne. split; [exact N|]. split; [|exact Z]. destruct L0; [congruence|exact O]. }
  destruct D as (a1 & Ed & (N1 & O1 & Z1 & E1)). destruct (destroyValues_length Ed) as [Lv Le]. rewrite Ed. cbn [bind].
  assert (Os : exists vs, holds true (offs a1) vs /\ length vs = (if numArrays a =? 0 then 0 else numArrays a + 1) /\
    nth_error (offsets 0 L ++ skipn (length (offsets 0 L)) vs) (length L0) = Some (stale L0 L)).
  { exists (match L0 with [] => [] | _ => offsets 0 L0 end). rewrite O1. split; [exact O|]. rewrite N. split.
    - destruct L0; [reflexivity|]. rewrite offsets_length. reflexivity.
    - unfold stale. destruct (Nat.leb_spec (length L0) (length L)) as [Le'|Gt].
      + rewrite nth_error_app1 by (rewrite offsets_length; lia). apply offsets_nth. exact Le'.
      + destruct L0 as [|r0 L0]; [cbn in Gt; lia|]. rewrite nth_error_app2 by (rewrite offsets_length; lia).
        assert (Q : nth_error (offsets 0 (r0 :: L0)) (length (r0 :: L0)) = Some (total (r0 :: L0))) by (rewrite offsets_nth, firstn_all by lia; reflexivity).
        rewrite <- Q. clear Q. set (vs := offsets 0 (r0 :: L0)). set (n := length (offsets 0 L)).
        assert (Hn : n <= length (r0 :: L0)) by (subst n; rewrite offsets_length; lia). assert (length (r0 :: L0) < length vs) by (subst vs; rewrite offsets_length; lia).
        rewrite <- (firstn_skipn n vs) at 2. rewrite nth_error_app2; rewrite firstn_length; [|lia]. f_equal. lia. }
  destruct Os as (vs & Hvs & Lvs & Stale). rewrite <- Lvs. rewrite <- (offsets_length L 0).
  destruct (copyInto_stale chk 0 Hvs O') as (o & -> & Ho). cbn [bind].
  rewrite N, <- (sizes_length L0), <- (sizes_length L). rewrite Z1.
  destruct (@copyInto_ok nat chk true BMalloc _ _ _ _ 0 Z Z') as (s & -> & Hz & _); [left; reflexivity|]. cbn [bind].
  rewrite !sizes_length. unfold offset at 1. cbn [offs set_szs set_offs]. rewrite (@holds_rd _ true o _ _ _ Ho Stale). cbn [bind].
  exists (set_szs s (set_offs o a1)). cbn [numArrays offs szs set_szs set_offs vals ents]. split; [congruence|]. split; [eapply holds_forget; exact Ho|]. split; [exact Hz|].
  split; [exact E1|]. split; [exact Lv|]. split; [exact Le|]. reflexivity.
Qed.
Lemma lay_nil_mem {X} (g : P -> X) t b : lay g t b [] -> mem t b (repeat LN (length b)).
Proof. intros [k M]. cbn in M. pose proof (mem_length M) as E. rewrite repeat_length in E. rewrite E. exact M. Qed.
Lemma stale_bound L0 L b : total L0 <= b -> stale L0 L <= b \/ b < total L.
Proof.
  intros H. unfold stale. destruct (Nat.leb_spec (length L0) (length L)); [|auto]. destruct (Nat.le_gt_cases (total (firstn (length L0) L)) b); auto. right.
  rewrite <- (firstn_skipn (length L0) L). rewrite total_app. lia.
Qed.
Lemma copy_ok {X} (g : P -> X) t a4 L (srcb b : buf X) : iok a4 L -> lay g t srcb L -> mem t b (repeat LN (length b)) -> total L <= length b ->
  oks (copy_rows chk a4 (copy_row t srcb) b) (fun b' => lay g t b' L).
Proof.
  intros I' Hs M C. unfold copy_rows. destruct I' as (N & O & Z). rewrite N.
  eapply oks_mono; [eapply (@build_rows P X g t srcb L b [] (repeat LN (length b - total L)) 0)|].
  - cbn [app]. rewrite <- repeat_app_add. eapply mem_cast; [exact M|]. f_equal. lia.
  - intros k r Hk. cbn [length plus]. split.
    + intros j v Hj. eapply lay_rd; eassumption.
    + intros b0. assert (k < length L) by (apply nth_error_Some; congruence). rewrite (@offset_at P V W a4 L k) by (try lia; split; auto). cbn [bind].
      rewrite (@sizeOf_at P V W chk a4 L k r) by (auto; split; auto). reflexivity.
  - intros b' M'. cbn [app] in M'. exists (length b - total L). exact M'.
Qed.
Notation fits t b L0 L := (roomy t (length b) (stale L0 L) (total L)).
Definition failure (t : bool) (cap m : nat) : outcome aoa :=
  if (chk && (cap <? m))%bool then Abort else if ((0 <? cap) && negb t)%bool then Fault FMove else Fault FOob.

Theorem setEqualTo_ok a L0 src L : pok a L0 -> aok src L ->
  if fits tv (vals a) L0 L then
    if (negb dual || fits tw (ents a) L0 L)%bool then oks (setEqualTo chk tv tw dual a src) (fun a' => aok a' L)
    else setEqualTo chk tv tw dual a src = failure tw (length (ents a)) (stale L0 L)
  else setEqualTo chk tv tw dual a src = failure tv (length (vals a)) (stale L0 L).
Proof.
  intros Ha Hs. destruct (prefix_ok Ha Hs) as (a2 & N2 & O2 & Z2 & [V2 W2] & Lv & Le & ->).
  pose proof Ha as (_ & _ & _ & [Va Wa]). pose proof Hs as [_ [Vs Ws]].
  pose proof (bare_reserve chk (n := total L) (m := stale L0 L) (lay_nil_mem V2)) as Bv. rewrite Lv in Bv. specialize (Bv (stale_bound L (lay_cap Va))).
  unfold each. destruct (fits tv (vals a) L0 L).
  2:{ rewrite Bv. unfold failure. destruct (_ && _)%bool; [reflexivity|]. destruct (_ && _)%bool; reflexivity. }
  destruct Bv as (v & -> & Mv & Cv). cbn [bind].
  assert (Rest : forall e, (dual = true -> mem tw e (repeat LN (length e)) /\ total L <= length e) ->
    oks (let a4 := set_num (length L) (mkAoA (numArrays a2) (offs a2) (szs a2) v e) in
       v <- copy_rows chk a4 (copy_row tv (vals src)) (vals a4) ;;
       e <- (if dual then copy_rows chk a4 (copy_row tw (ents src)) (ents a4) else Ok (ents a4)) ;;
       Ok (mkAoA (numArrays a4) (offs a4) (szs a4) v e)) (fun a' => aok a' L)).
  { intros e He. cbn zeta. cbn [set_num numArrays offs szs vals ents].
    assert (I4 : iok (P := P) (mkAoA (length L) (offs a2) (szs a2) v e) L) by (split; [reflexivity|]; split; assumption).
    eapply oks_bind; [eapply copy_ok; eassumption|]. intros v' Lv'. destruct dual eqn:D.
    - destruct (He eq_refl) as [Me Ce]. eapply oks_bind; [eapply (@copy_ok W fw); [exact I4|exact (Ws eq_refl)|exact Me|exact Ce]|]. intros e' Le'. apply oks_ok.
      split; [destruct I4 as (? & ? & ?); split; [|split]; assumption|]. split; auto.
    - apply oks_ok. split; [destruct I4 as (? & ? & ?); split; [|split]; assumption|]. split; [exact Lv'|congruence]. }
  destruct dual eqn:D; cbn [negb orb].
  - pose proof (bare_reserve chk (n := total L) (m := stale L0 L) (lay_nil_mem (W2 eq_refl))) as Bw. rewrite Le in Bw. specialize (Bw (stale_bound L (lay_cap (Wa eq_refl)))).
    destruct (fits tw (ents a) L0 L).
    + destruct Bw as (e & -> & Me & Ce). cbn [bind]. apply Rest. auto.
    + rewrite Bw. unfold failure. destruct (_ && _)%bool; [reflexivity|]. destruct (_ && _)%bool; reflexivity.
  - cbn [bind]. apply Rest. congruence.
Qed.

(** * Assignment from itself *)
Definition empty_rows L : bool := forallb (fun r => length (fst r) =? 0) L.
Lemma destroy_keeps {X} (g : P -> X) t a L (b : buf X) : iok a L -> lay g t b L -> (t || empty_rows L)%bool = true ->
  for_up (length L) (fun i b => o <- offset a i ;; s <- sizeOfArray chk a i ;; ArrayManip.destroy t b o s) 0 b = Ok b.
Proof.
  intros I' H Hc. apply lay_cap in H.
  assert (G : forall n i, i + n = length L -> for_up n (fun i b => o <- offset a i ;; s <- sizeOfArray chk a i ;; ArrayManip.destroy t b o s) i b = Ok b).
  { induction n as [|n IH]; intros i E; cbn [for_up]; [reflexivity|]. destruct (nth_error L i) as [r|] eqn:Er; [|apply nth_error_None in Er; lia].
    rewrite (offset_at I') by lia. cbn [bind]. rewrite (sizeOf_at chk I' Er). cbn [bind].
    assert (D : ArrayManip.destroy t b (total (firstn i L)) (length (fst r)) = Ok b).
    { unfold ArrayManip.destroy. destruct t; cbn [orb] in Hc.
      - apply destroy_true. pose proof (total_firstn_S Er) as Q. pose proof (firstn_skipn (i + 1) L) as R. apply (f_equal (@total P)) in R. rewrite total_app in R. unfold wid in Q. lia.
      - unfold empty_rows in Hc. rewrite forallb_forall in Hc. specialize (Hc r (nth_error_In _ _ Er)). apply Nat.eqb_eq in Hc. rewrite Hc. reflexivity. }
    rewrite D. cbn [bind]. apply IH. lia. }
  apply G. reflexivity.
Qed.
Lemma self_rows {X} (g : P -> X) t a L (b : buf X) : iok a L -> lay g t b L -> (t || empty_rows L)%bool = true ->
  copy_rows chk a (copy_row_self t) b = Ok b.
Proof.
  intros I' H Hc. unfold copy_rows. rewrite (proj1 I').
  assert (G : forall n i, i + n = length L -> for_up n (fun i b => o <- offset a i ;; s <- sizeOfArray chk a i ;; copy_row_self t o s b) i b = Ok b).
  { induction n as [|n IH]; intros i E; cbn [for_up]; [reflexivity|]. destruct (nth_error L i) as [r|] eqn:Er; [|apply nth_error_None in Er; lia].
    rewrite (offset_at I') by lia. cbn [bind]. rewrite (sizeOf_at chk I' Er). cbn [bind].
    assert (D : copy_row_self t (total (firstn i L)) (length (fst r)) b = Ok b).
    { unfold copy_row_self. destruct t eqn:Et; cbn [orb] in Hc.
      - assert (G : forall m j, j + m = length (fst r) -> for_up m (fun j b => v <- rd b (total (firstn i L) + j) ;; construct true b (total (firstn i L) + j) v) j b = Ok b).
        { induction m as [|m IHm]; intros j Ej; cbn [for_up]; [reflexivity|]. destruct (nth_error (map g (fst r)) j) as [v|] eqn:Ev; [|apply nth_error_None in Ev; rewrite map_length in Ev; lia].
          rewrite (lay_rd H Er Ev). cbn [bind]. rewrite (construct_same (lay_rd H Er Ev)). cbn [bind]. apply IHm. lia. }
        apply G. reflexivity.
      - unfold empty_rows in Hc. rewrite forallb_forall in Hc. specialize (Hc r (nth_error_In _ _ Er)). apply Nat.eqb_eq in Hc. rewrite Hc. reflexivity. }
    rewrite D. cbn [bind]. apply IH. lia. }
  apply G. reflexivity.
Qed.
Lemma self_bad {X} t a L (b : buf X) : iok a L -> mem t b (repeat LN (length b)) -> total L <= length b -> (t || empty_rows L)%bool = false ->
  copy_rows chk a (copy_row_self t) b = Fault FRead.
Proof.
  intros I' M C Hc. apply orb_false_iff in Hc. destruct Hc as [-> Hc]. unfold copy_rows. rewrite (proj1 I').
  assert (G : forall T i, length L = i + length T -> (forall k, nth_error T k = nth_error L (i + k)) -> empty_rows T = false ->
    for_up (length T) (fun i b => o <- offset a i ;; s <- sizeOfArray chk a i ;; copy_row_self false o s b) i b = Fault FRead).
  { induction T as [|r T IH]; intros i El En Ee; [discriminate|]. cbn [for_up length]. pose proof (En 0) as Er. cbn in Er. rewrite Nat.add_0_r in Er. symmetry in Er.
    cbn [length] in El. rewrite (offset_at I') by lia. cbn [bind]. rewrite (sizeOf_at chk I' Er). cbn [bind]. unfold copy_row_self. destruct (length (fst r)) as [|n] eqn:Ln.
    - cbn [for_up bind]. apply IH; [lia| |cbn in Ee; rewrite Ln in Ee; exact Ee]. intros k. rewrite <- Nat.add_assoc. exact (En (S k)).
    - cbn [for_up]. assert (R : @rd X b (total (firstn i L) + 0) = Fault FRead); [|rewrite R; reflexivity].
      pose proof (total_firstn_S Er) as Q. unfold wid in Q. pose proof (firstn_skipn (i + 1) L) as R. apply (f_equal (@total P)) in R. rewrite total_app in R.
      unfold rd, aget. destruct (nth_error b (total (firstn i L) + 0)) as [c|] eqn:Ec; [|apply nth_error_None in Ec; lia]. cbn [bind].
      assert (c = Raw); [|subst; reflexivity]. clear -M Ec. revert M Ec. generalize (total (firstn i L) + 0) as j. induction b as [|x b IH]; intros [|j] M E; cbn in *; try discriminate; inversion M as [|? ? ? ? R ?]; subst.
      + injection E as ->. destruct R as [R|R]; [discriminate|exact R].
      + eapply IH; eassumption. }
  apply G; auto.
Qed.
Theorem setEqualToSelf_ok a L : aok a L ->
  if (allt tv tw dual || empty_rows L)%bool then oks (setEqualToSelf chk tv tw dual a) (fun a' => aok a' L)
  else setEqualToSelf chk tv tw dual a = Fault FRead.
Proof.
  intros [I' [Va Wa]]. pose proof I' as (N & O & Z). unfold setEqualToSelf. rewrite N, (offset_at I'), firstn_all by lia. cbn [bind].
  (* destroyed buffers *)
  assert (D : exists v e, destroyValues chk tv tw dual a 0 (length L) = Ok (mkAoA (length L) (offs a) (szs a) v e) /\
    length v = length (vals a) /\ length e = length (ents a) /\ lay fv tv v [] /\ (dual = true -> lay fw tw e []) /\
    ((tv || empty_rows L)%bool = true -> v = vals a) /\ (dual = true -> (tw || empty_rows L)%bool = true -> e = ents a)).
  { destruct (@destroyAll_ok P V W fv fw chk tv tw dual a L N) as (a1 & Ed & (N1 & O1 & Z1 & [V1 W1])); [intros _; exact I'|split; assumption|].
    rewrite N in Ed. destruct (destroyValues_length Ed) as [Lv Le]. destruct a1 as [n1 o1 s1 v e]. cbn in *. subst n1 o1 s1. rewrite N in Ed. exists v, e. split; [exact Ed|].
    split; [exact Lv|]. split; [exact Le|]. split; [exact V1|]. split; [exact W1|].
    unfold destroyValues, each, check_array_insert, check_if in Ed. rewrite N in Ed. destruct (Nat.ltb_spec (length L) 0); [lia|]. rewrite andb_false_r in Ed. cbn [bind] in Ed.
    destruct (Nat.ltb_spec (length L) (length L)); [lia|]. rewrite andb_false_r in Ed. cbn [bind] in Ed. rewrite Nat.sub_0_r in Ed. split.
    - intros Hc. rewrite (destroy_keeps I' Va Hc) in Ed. cbn [bind] in Ed. destruct (if dual then _ else _); try discriminate. injection Ed as <-. congruence.
    - intros Hd Hc. rewrite Hd in Ed. destruct (for_up _ _ 0 (vals a)) as [v'| |]; try discriminate. cbn [bind] in Ed. rewrite (destroy_keeps I' (Wa Hd) Hc) in Ed. injection Ed. congruence. }
  destruct D as (v & e & -> & Lv & Le & V1 & W1 & Kv & Ke). cbn [bind offs szs numArrays].
  (* offsets *)
  assert (Of : exists vs, holds true (offs a) vs /\ length vs = (if length L =? 0 then 0 else length L + 1) /\ list_resize vs (length L + 1) 0 = offsets 0 L).
  { destruct L as [|r L].
    - exists []. split; [apply (holds_forget (xs := []) (ys := [0])); exact O|]. split; reflexivity.
    - exists (offsets 0 (r :: L)). split; [exact O|]. rewrite offsets_length. split; [reflexivity|]. unfold list_resize. rewrite firstn_all2 by (rewrite offsets_length; lia).
      rewrite offsets_length, Nat.sub_diag. apply app_nil_r. }
  destruct Of as (vs & Hvs & Lvs & Rvs). rewrite <- Lvs. rewrite check_ok by (eapply holds_cap; exact Hvs). cbn [bind]. rewrite <- (offsets_length L 0). rewrite check_ok by (eapply holds_cap; exact O). cbn [bind].
  destruct (@resize_ok nat chk true BMalloc (offs a) vs (length (offsets 0 L)) 0 Hvs) as (o1 & -> & Ho1 & _); [left; reflexivity|]. rewrite offsets_length, Rvs in Ho1. cbn [bind].
  assert (Oo : oks (for_up (length (offsets 0 L)) (fun i b => v <- rd b i ;; assign true b i v) 0 o1) (fun b => holds true b (offsets 0 L))).
  { eapply oks_mono; [apply (@oks_for_up (buf nat) (fun _ b => holds true b (offsets 0 L))); [exact Ho1|]|intros b' Hb; exact Hb].
    intros i b' Hi Hb. destruct (nth_error (offsets 0 L) i) as [x|] eqn:Ex; [|apply nth_error_None in Ex; lia]. rewrite (@holds_rd nat true b' _ i x Hb Ex). cbn [bind].
    eapply oks_mono; [eapply CopyMoveProofs.reassign; eassumption|]. intros b2 [H2 _]. exact H2. }
  destruct Oo as (o & -> & Ho). cbn [bind]. rewrite <- (sizes_length L). destruct (CopyMoveProofs.copyIntoSelf_ok chk 0 Z) as (s & -> & Hs). cbn [bind]. rewrite sizes_length.
  set (a2 := set_szs s (set_offs o (mkAoA (length L) (offs a) (szs a) v e))).
  assert (I2 : iok (P := P) a2 L) by (split; [reflexivity|]; split; assumption). rewrite (offset_at I2), firstn_all by lia. cbn [bind].
  (* reserve does nothing *)
  assert (Rs : forall A t (b : buf A), total L <= length b -> BufferManip.reserve chk t BMalloc b (total L) (total L) = Ok b).
  { intros A t b H. unfold reserve, check, capacity, check_if. destruct (Nat.ltb_spec (length b) (total L)); [lia|]. rewrite andb_false_r. reflexivity. }
  unfold each. cbn [vals ents a2 set_szs set_offs offs szs numArrays]. pose proof (lay_cap Va) as Cv. rewrite Rs by lia. cbn [bind].
  assert (R2 : (if dual then BufferManip.reserve chk tw BMalloc e (total L) (total L) else Ok e) = Ok e).
  { destruct dual eqn:D; [|reflexivity]. pose proof (lay_cap (Wa eq_refl)). rewrite Rs by lia. reflexivity. }
  rewrite R2. cbn [bind]. cbn [vals ents offs szs numArrays]. fold a2. change (mkAoA (length L) o s v e) with a2.
  destruct (tv || empty_rows L)%bool eqn:Cvv.
  - specialize (Kv eq_refl). subst v. rewrite (self_rows I2 Va Cvv). cbn [bind]. destruct dual eqn:D.
    + destruct (tw || empty_rows L)%bool eqn:Cww.
      * specialize (Ke eq_refl eq_refl). subst e. rewrite (self_rows I2 (Wa eq_refl) Cww). cbn [bind].
        replace (allt tv tw true || empty_rows L)%bool with true by (unfold allt; destruct tv, tw, (empty_rows L); cbn in *; congruence).
        apply oks_ok. split; [exact I2|]. split; [exact Va|exact Wa].
      * replace (allt tv tw true || empty_rows L)%bool with false by (unfold allt; destruct tv, tw, (empty_rows L); cbn in *; congruence).
        rewrite (self_bad I2 (lay_nil_mem (W1 eq_refl))); [reflexivity| |exact Cww]. pose proof (lay_cap (Wa eq_refl)). lia.
    + replace (allt tv tw false || empty_rows L)%bool with true by (unfold allt; destruct tv, (empty_rows L); cbn in *; congruence).
      apply oks_ok. split; [exact I2|]. split; [exact Va|congruence].
  - replace (allt tv tw dual || empty_rows L)%bool with false by (unfold allt; destruct tv, (empty_rows L); cbn in *; congruence).
    rewrite (self_bad I2 (lay_nil_mem V1)); [reflexivity|lia|exact Cvv].
Qed.
End Copy.
