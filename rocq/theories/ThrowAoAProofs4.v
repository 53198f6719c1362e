(** Copying an ArrayOfArrays, when an element throws. *)
From Coq Require Import List Arith ZArith Lia Bool.
From Verif Require Import Base BaseProofs Mem MemProofs ArrayManipProofs BufferManip BufferManipProofs AoA AoASpec AoALayout AoAProofs AoAProofs2 AoAProofs3.
From Verif Require Import AoACopy AoACopyProofs Throw ThrowProofs ThrowAoA ThrowAoASpec ThrowAoAProofs ThrowAoAProofs2 ThrowAoAProofs3.
From Verif Require ArrayManip AoAProofs4.
Import ListNotations.
Set Implicit Arguments.
Unset Strict Implicit.

Section Copy.
Variable V : Type.
Variable chk : bool.
Notation aoa := (aoa V unit).
Notation row := (list V * nat)%type.
Notation rows := (list row).
Notation idv := (fun v : V => v).
Notation fu := (fun _ : V => tt).
Notation aok := (@aok V V unit idv fu false true false).
Notation pok := (@pok V V unit idv fu false true false).
Notation iok := (@iok V V unit).
Notation mem := (@mem V false).
Notation LVs := (map (@LV V)).
Notation lay := (@lay V V idv false).
Notation dtor := (aoa_dtor chk false true false BMalloc).
Implicit Types a : aoa.
Implicit Types A B L T : rows.
Notation count L := (length (concat (map fst L))).

(** One array *)
Lemma x_row_spec (src : buf V) vs : forall b p s o i n, mem b (p ++ repeat LN (length vs) ++ s) -> o + i = length p ->
  (forall j v, nth_error vs j = Some v -> rd src (o + i + j) = Ok v) ->
  xspec (xfor_up (length vs) (fun k n b => let! n1 v <~ xlift n b (rd src (o + k)) ;; x_construct false n1 b (o + k) v) i n b)
    (fun n' b' => n = n' + length vs /\ for_up (length vs) (fun j b => v <- rd src (o + j) ;; construct false b (o + j) v) i b = Ok b')
    (fun w t => w = Element /\ n < length vs /\ mem t (p ++ LVs (firstn n vs) ++ repeat LN (length vs - n) ++ s)).
Proof.
  induction vs as [|v vs IH]; intros b p s o i n M E R; cbn [xfor_up for_up length].
  - simpl. split; auto.
  - pose proof (R 0 v eq_refl) as R0. rewrite Nat.add_0_r in R0. rewrite R0. cbn [xlift xbind bind length repeat app] in *.
    eapply xspec_bind.
    + eapply xspec_mono; [eapply (@x_construct_spec V b p LN (repeat LN (length vs) ++ s) (o + i) n v M E); exact Logic.I| |].
      * intros n' b' H. exact H.
      * intros w t (-> & -> & ->). split; [reflexivity|]. split; [lia|]. simpl. exact M.
    + intros n' b' (-> & Eb & Mb). eapply xspec_mono.
      * apply (IH b' (p ++ [LV v]) s o (i + 1) n').
        -- eapply mem_cast; [exact Mb|]. rewrite <- app_assoc. reflexivity.
        -- rewrite app_length. simpl. lia.
        -- intros j w Hj. replace (o + (i + 1) + j) with (o + i + S j) by lia. apply R. exact Hj.
      * intros n2 b2 (-> & E2). split; [lia|]. rewrite Eb. exact E2.
      * intros w t (-> & L & M2). split; [reflexivity|]. split; [lia|]. eapply mem_cast; [exact M2|].
        rewrite <- app_assoc. replace (n' + 1) with (S n') by lia. reflexivity.
Qed.

(** All arrays *)
Lemma x_rows_spec (src : buf V) T : forall b p s i n fx fn, mem b (p ++ repeat LN (total T) ++ s) ->
  (forall k r, nth_error T k = Some r -> (forall j v, nth_error (fst r) j = Some v -> rd src (length p + total (firstn k T) + j) = Ok v) /\
     (forall b, fn (i + k) b = copy_row false src (length p + total (firstn k T)) (length (fst r)) b) /\
     (forall n b, fx (i + k) n b = x_copy_row false n src (length p + total (firstn k T)) (length (fst r)) b)) ->
  xspec (xfor_up (length T) fx i n b)
    (fun n' b' => n = n' + count T /\ for_up (length T) fn i b = Ok b')
    (fun w t => w = Element /\ n < count T /\ exists A r k B m, T = A ++ (r, k) :: B /\ m < length r /\ n = count A + m /\
       mem t (p ++ flat idv A ++ LVs (firstn m r) ++ repeat LN (length r - m + k + total B) ++ s)).
Proof.
  induction T as [|[r k] T IH]; intros b p s i n fx fn M F; cbn [xfor_up for_up length].
  - simpl. split; auto.
  - destruct (F 0 (r, k) eq_refl) as (R0 & F0 & X0). rewrite Nat.add_0_r in F0, X0. cbn [firstn total fst] in *. rewrite Nat.add_0_r in *.
    rewrite X0, F0. unfold x_copy_row, copy_row. cbn [map fst concat]. rewrite app_length.
    eapply xspec_bind.
    + eapply xspec_mono.
      * eapply (@x_row_spec src r b p (repeat LN k ++ repeat LN (total T) ++ s) (length p) 0 n); [eapply mem_cast; [exact M|]|lia|].
        -- unfold wid. cbn [fst snd]. rewrite !repeat_app_add, <- !app_assoc. reflexivity.
        -- intros j v Hj. rewrite Nat.add_0_r. apply R0. exact Hj.
      * intros n' b' H. exact H.
      * intros w t (-> & Ln & Mt). split; auto. split; [lia|]. exists [], r, k, T, n. split; [reflexivity|]. split; [exact Ln|]. split; [reflexivity|].
        eapply mem_cast; [exact Mt|]. cbn [flat flat_map app]. rewrite !repeat_app_add, <- !app_assoc. reflexivity.
    + intros n' b1 (-> & E1). rewrite E1. cbn [bind].
      destruct (@build_row V false src r b p (repeat LN k ++ repeat LN (total T) ++ s) (length p) 0) as (b1' & E1' & M1).
      { eapply mem_cast; [exact M|]. unfold wid. cbn [fst snd]. rewrite !repeat_app_add, <- !app_assoc. reflexivity. }
      { lia. }
      { intros j v Hj. rewrite Nat.add_0_r. apply R0. exact Hj. }
      rewrite E1 in E1'. injection E1' as <-.
      eapply xspec_mono; [apply (IH b1 (p ++ LVs r ++ repeat LN k) s (i + 1) n' fx fn)| |].
      * eapply mem_cast; [exact M1|]. rewrite <- !app_assoc. reflexivity.
      * intros j q Hj. destruct (F (S j) q Hj) as (Rj & Fj & Xj). cbn [firstn total] in Rj, Fj, Xj.
        assert (Eq : length (p ++ LVs r ++ repeat LN k) + total (firstn j T) = length p + (wid (r, k) + total (firstn j T))).
        { unfold wid. cbn [fst snd]. len. }
        rewrite Eq. replace (i + S j) with (i + 1 + j) in Fj, Xj by lia. auto.
      * intros n2 b2 [-> E2]. split; [lia|exact E2].
      * intros w t (-> & Ln & A & r' & k' & B & m & -> & Hm & -> & Mt). split; auto. split; [lia|].
        exists ((r, k) :: A), r', k', B, m. split; [reflexivity|]. split; [exact Hm|]. split; [cbn [map fst concat]; rewrite app_length; lia|].
        eapply mem_cast; [exact Mt|]. unfold flat. cbn [flat_map]. unfold cells at 2. cbn [fst snd]. rewrite map_id, <- !app_assoc. reflexivity.
Qed.

Lemma before_any t A r k B s : iok t (A ++ (r, k) :: B) -> forall b, mem b (flat idv A ++ s) ->
  oks (for_up (length A) (fun i b => o <- offset t i ;; s <- sizeOfArray chk t i ;; ArrayManip.destroy false b o s) 0 b)
    (fun b' => mem b' (repeat LN (total A) ++ s)).
Proof.
  intros I b M. eapply (@rows_destroy V V idv false A b [] s 0).
  - exact M.
  - intros j x N b0. cbn beta. assert (j < length A) by (apply nth_error_Some; congruence). cbn [plus].
    rewrite (offset_at I) by len. cbn [bind].
    rewrite (sizeOf_at chk (r := x) I) by (rewrite nth_error_app1 by lia; exact N). cbn [bind].
    f_equal. rewrite firstn_app. replace (j - length A) with 0 by lia. rewrite firstn_O, app_nil_r. reflexivity.
Qed.
Lemma dtor_corrupt_any t A r k B p s : iok t (A ++ (r, k) :: B) -> mem (vals t) (flat idv A ++ p ++ LN :: s) -> Forall live p -> length p < length r ->
  dtor t = Fault FDestroy.
Proof.
  intros I M F H. rewrite (dtor_unfold chk I), rows_total, for_up_plus.
  destruct (before_any I M) as (b1 & E1 & M1). rewrite E1. cbn [bind plus for_up].
  rewrite (row_off I). cbn [bind]. rewrite (row_size chk I). cbn [bind].
  rewrite (@destroy_hits_at V b1 (repeat LN (total A)) p s (length r)); auto.
  rewrite flat_length, repeat_length. reflexivity.
Qed.

(** Everything before the elements are copied. *)
Notation pre a src := (
    srcMaxOffset <- offset src (numArrays src) ;;
    a1 <- destroyValues chk false true false a 0 (numArrays a) ;;
    let offsetsSize := if numArrays a =? 0 then 0 else numArrays a + 1 in
    o <- copyInto chk true BMalloc (offs a1) offsetsSize (offs src) (numArrays src + 1) 0 ;;
    s <- copyInto chk true BMalloc (szs a1) (numArrays a) (szs src) (numArrays src) 0 ;;
    let a2 := set_szs s (set_offs o a1) in
    maxOffset <- offset a2 (numArrays a) ;;
    a3 <- each false true false (fun _ t b => BufferManip.reserve chk t BMalloc b maxOffset srcMaxOffset) a2 ;;
    Ok (set_num (numArrays src) a3)).

Lemma pre_setEqualTo a src : setEqualTo chk false true false a src =
  (a4 <- pre a src ;; v <- copy_rows chk a4 (copy_row false (vals src)) (vals a4) ;; Ok (set_vals v a4)).
Proof.
  unfold setEqualTo.
  destruct (offset src (numArrays src)) as [mo| |]; cbn [bind]; auto.
  destruct (destroyValues chk false true false a 0 (numArrays a)) as [a1| |]; cbn [bind]; auto.
  destruct (copyInto chk true BMalloc (offs a1) _ (offs src) _ 0) as [o| |]; cbn [bind]; auto.
  destruct (copyInto chk true BMalloc (szs a1) _ (szs src) _ 0) as [z| |]; cbn [bind]; auto. cbv zeta.
  destruct (offset (set_szs z (set_offs o a1)) (numArrays a)) as [mx| |]; cbn [bind]; auto.
  destruct (each false true false _ _) as [a3| |]; cbn [bind]; auto.
Qed.

Lemma reserve_bare b m n b' : mem b (repeat LN (length b)) -> reserve chk false BMalloc b m n = Ok b' -> (m <= length b \/ length b < n) ->
  mem b' (repeat LN (length b')) /\ n <= length b'.
Proof.
  intros M E H. pose proof (bare_reserve chk M H) as B. rewrite E in B. destruct (roomy false (length b) m n).
  - destruct B as (b1 & E1 & R). injection E1 as <-. exact R.
  - destruct (_ && _)%bool; [discriminate|]. destruct (_ && _)%bool; discriminate.
Qed.

Lemma pre_ok a L0 src L a4 : pok a L0 -> aok src L -> pre a src = Ok a4 ->
  iok a4 L /\ mem (vals a4) (repeat LN (length (vals a4))) /\ total L <= length (vals a4).
Proof.
  intros (N & O & Z & E) Hs. pose proof Hs as [I' _]. pose proof I' as (N' & O' & Z'). rewrite N', (offset_at I'), firstn_all by lia. cbn [bind].
  assert (D : oks (destroyValues chk false true false a 0 (numArrays a)) (fun a' => numArrays a' = numArrays a /\ offs a' = offs a /\ szs a' = szs a /\
     @vok V V unit idv fu false true false a' [])).
  { eapply destroyAll_ok; [exact N| |exact E]. intros Ne. split; [exact N|]. split; [|exact Z]. destruct L0; [congruence|exact O]. }
  destruct D as (a1 & Ed & (N1 & O1 & Z1 & E1)). destruct (destroyValues_length Ed) as [Lv Le]. rewrite Ed. cbn [bind].
  assert (Os : exists vs, holds true (offs a1) vs /\ length vs = (if numArrays a =? 0 then 0 else numArrays a + 1) /\
    nth_error (offsets 0 L ++ skipn (length (offsets 0 L)) vs) (length L0) = Some (stale L0 L)).
  { exists (match L0 with [] => [] | _ => offsets 0 L0 end). rewrite O1. split; [exact O|]. rewrite N. split.
    - destruct L0; [reflexivity|]. rewrite offsets_length. reflexivity.
    - unfold stale. destruct (Nat.leb_spec (length L0) (length L)) as [Le'|Gt].
      + rewrite nth_error_app1 by (rewrite offsets_length; lia). apply offsets_nth. exact Le'.
      + destruct L0 as [|r0 L0]; [cbn in Gt; lia|]. rewrite nth_error_app2 by (rewrite offsets_length; lia).
        assert (Q : nth_error (offsets 0 (r0 :: L0)) (length (r0 :: L0)) = Some (total (r0 :: L0))) by (rewrite offsets_nth, firstn_all by lia; reflexivity).
        rewrite <- Q. clear Q. set (vs := offsets 0 (r0 :: L0)). set (n := length (offsets 0 L)).
        assert (Hn : n <= length (r0 :: L0)) by (subst n; rewrite offsets_length; lia). assert (length (r0 :: L0) < length vs) by (subst vs; rewrite offsets_length; lia).
        rewrite <- (firstn_skipn n vs) at 2. rewrite nth_error_app2; rewrite firstn_length; [|lia]. f_equal. lia. }
  destruct Os as (vs & Hvs & Lvs & Stale). rewrite <- Lvs. rewrite <- (offsets_length L 0).
  destruct (copyInto_stale chk 0 Hvs O') as (o & -> & Ho). cbn [bind].
  rewrite N, <- (sizes_length L0), <- (sizes_length L). rewrite Z1.
  destruct (@copyInto_ok nat chk true BMalloc _ _ _ _ 0 Z Z') as (s & -> & Hz & _); [left; reflexivity|]. cbn [bind]. cbv zeta.
  rewrite !sizes_length. unfold offset at 1. cbn [offs set_szs set_offs]. rewrite (@holds_rd _ true o _ _ _ Ho Stale). cbn [bind].
  unfold each. cbn [vals set_szs set_offs].
  destruct (reserve chk false BMalloc (vals a1) (stale L0 L) (total L)) as [b| |] eqn:Er; cbn [bind]; try discriminate.
  intros Q. injection Q as <-. cbn [set_num vals].
  destruct E as [Va _]. destruct E1 as [V1 _].
  destruct (reserve_bare (lay_nil_mem V1) Er) as [Mb Cb].
  { rewrite Lv. apply stale_bound. exact (lay_cap Va). }
  split; [|auto]. split; [reflexivity|]. split; [eapply holds_forget; exact Ho|exact Hz].
Qed.

Lemma count_before A r k B i x j : nth_error (A ++ (r, k) :: B) i = Some x -> length A <= i -> j < length (fst x) ->
  count (firstn i (A ++ (r, k) :: B)) + j >= count A + (if i =? length A then j else length r).
Proof.
  intros N H J. rewrite firstn_app, firstn_all2 by lia. destruct (Nat.eqb_spec i (length A)) as [->|Ne].
  - rewrite Nat.sub_diag, firstn_O, app_nil_r. lia.
  - destruct (i - length A) as [|m] eqn:Em; [lia|]. cbn [firstn]. rewrite map_app, concat_app, app_length. cbn [map fst concat]. rewrite app_length. lia.
Qed.

Lemma count_total L : count L <= total L.
Proof. induction L as [|[r k] L IH]; cbn [map concat total length fst]; auto. rewrite app_length. unfold wid. cbn [fst snd]. lia. Qed.

Theorem x_setEqualTo_ok a L0 src L a' n : pok a L0 -> aok src L -> setEqualTo chk false true false a src = Ok a' ->
  xspec (x_setEqualTo chk false n a src)
    (fun n' x => n = n' + count L /\ x = a')
    (fun w t => w = Element /\ n < count L /\ dtor t = Fault FDestroy /\ numArrays t = length L /\
       (forall i r, nth_error L i = Some r -> sizeOfArray chk t i = Ok (length (fst r))) /\
       (forall i r j v, nth_error L i = Some r -> nth_error (fst r) j = Some v -> count (firstn i L) + j < n -> aoa_at chk t i j = Ok v) /\
       length L < length (offs t) /\ length L <= length (szs t) /\ count L <= length (vals t)).
Proof.
  intros Ha Hs E. rewrite pre_setEqualTo in E. unfold x_setEqualTo. destruct (pre a src) as [a4| |] eqn:Ep; cbn [bind] in E; try discriminate.
  cbn [xlift xbind]. destruct (pre_ok Ha Hs Ep) as (I4 & M4 & C4). pose proof I4 as (N4 & O4 & Z4). pose proof Hs as [_ [Vs _]].
  destruct (copy_rows chk a4 (copy_row false (vals src)) (vals a4)) as [b| |] eqn:Ec; cbn [bind] in E; try discriminate. injection E as <-.
  unfold x_copy_rows. unfold copy_rows in Ec. rewrite N4 in *.
  eapply xspec_bind; [apply xspec_left; eapply xspec_mono|].
  - apply (@x_rows_spec (vals src) L (vals a4) [] (repeat LN (length (vals a4) - total L)) 0 n _
       (fun i b => o <- offset a4 i ;; s <- sizeOfArray chk a4 i ;; copy_row false (vals src) o s b)).
    + cbn [app]. rewrite <- repeat_app_add. eapply mem_cast; [exact M4|]. f_equal. lia.
    + intros k r Hk. cbn [length plus]. assert (k < length L) by (apply nth_error_Some; congruence). split; [|split].
      * intros j v Hj. apply (@lay_rd V V idv false (vals src) L k r j v Vs Hk). rewrite map_id. exact Hj.
      * intros b0. rewrite (offset_at I4) by lia. cbn [bind]. rewrite (sizeOf_at chk I4 Hk). reflexivity.
      * intros n0 b0. rewrite (offset_at I4) by lia. cbn [xlift xbind]. rewrite (sizeOf_at chk I4 Hk). reflexivity.
  - intros n' b' H. exact H.
  - cbn [app]. intros w t (-> & Hn & A & r & k & B & m & -> & Hm & En & Mt). split; auto. split; auto.
    assert (It : iok (set_vals t a4) (A ++ (r, k) :: B)) by exact I4. split; [|split; [|split; [|split]]].
    + replace (length r - m + k + total B) with (S (length r - m - 1 + k + total B)) in Mt by lia. cbn [repeat] in Mt.
      eapply dtor_corrupt_any; [exact It|exact Mt|apply live_LVs|]. rewrite map_length, firstn_length. lia.
    + cbn. exact N4.
    + intros i x Hx. exact (sizeOf_at chk It Hx).
    + intros i x j v Hx Hv Hc. assert (Hj : j < length (fst x)) by (apply nth_error_Some; congruence).
      unfold aoa_at. rewrite (iok_check2 chk It Hx Hj). cbn [bind set_vals vals].
      destruct (Nat.lt_ge_cases i (length A)) as [Lt|Ge].
      * eapply rd_nth; [exact Mt|]. rewrite nth_error_app1 in Hx by lia. rewrite firstn_app. replace (i - length A) with 0 by lia.
        rewrite firstn_O, app_nil_r. pose proof (flat_nth Hx Hv) as Fn. rewrite nth_error_app1; [exact Fn|]. apply nth_error_Some. congruence.
      * pose proof (count_before Hx Ge Hj) as Q. destruct (Nat.eqb_spec i (length A)) as [->|Ne]; [|lia].
        rewrite row_nth in Hx. injection Hx as <-. cbn [fst] in *. eapply rd_nth; [exact Mt|].
        rewrite firstn_app_exact by auto. rewrite nth_error_app2 by (rewrite flat_length; lia). rewrite flat_length.
        replace (total A + j - total A) with j by lia. rewrite nth_error_app1 by (rewrite map_length, firstn_length; lia).
        apply map_nth_error. rewrite <- (firstn_skipn m r) in Hv. rewrite nth_error_app1 in Hv by (rewrite firstn_length; lia). exact Hv.
    + destruct It as (_ & Ot & Zt). pose proof (holds_cap Ot) as C1. pose proof (holds_cap Zt) as C2. rewrite offsets_length in C1. rewrite sizes_length in C2.
      pose proof (mem_length Mt) as C3. rewrite !app_length, map_length, !repeat_length, flat_length, firstn_length in C3.
      pose proof (count_total A). pose proof (count_total B). cbn [offs szs vals set_vals] in *. split; [lia|]. split; [lia|].
      rewrite map_app, concat_app, app_length. cbn [map fst concat]. rewrite app_length. rewrite total_app in *. cbn [total] in *. unfold wid in *. cbn [fst snd] in *. lia.
  - intros n' b' (-> & Eb). cbn [xspec]. rewrite Ec in Eb. injection Eb as <-. auto.
Qed.

Lemma null_pok0 : pok (null_aoa V unit BMalloc) [].
Proof. exact (@null_pok V V unit idv fu false true false). Qed.
End Copy.
