(** The assertions of a debug build in SparsityPattern. *)
From Coq Require Import List Arith ZArith Lia Bool Sorting.Sorted.
From Verif Require Import Base BaseProofs Mem MemProofs BufferManip Debug DebugProofs Sorted SortedSpec SortedProofs SortedProofs2 SortedArraySpec
  AoA AoASpec AoALayout AoAProofs AoAProofs2 AoAProofs4 AoS AoSSpec SetsProofs SetsProofs2 AoSProofs Sparsity SparsitySpec SparsityProofs
  DebugSorted DebugSortedProofs DebugSets DebugSetsProofs DebugSparsity.
From Verif Require DebugProofs2 ArrayManip.
Import ListNotations.
Set Implicit Arguments.
Unset Strict Implicit.

Section D.
Variable W : Type.
Variable w0 : W.
Variables dbg chk tw : bool.
Variable cmax : Z.
Notation kind := BMalloc.
Notation idv := (fun v : Z => v).
Notation fw := (fun _ : Z => w0).
Notation aok := (@aok Z Z W idv fw true tw false).
Notation prep := (@prep W w0 tw).
Implicit Types p : pattern W.

(** After incrementSize the values are at the new pointer, whatever the number asked for. *)
Lemma grow_any newCap (a : aoa Z W) A r k B n b1 x1 q : aok a (A ++ (r, k) :: B) -> (forall m, length r + k < m -> length r <= newCap m) ->
  cb_inc (grow_cb Z W chk true tw false kind newCap (length A)) n (vals a, (a, 0)) = Ok (b1, x1, q) -> view b1 q r.
Proof.
  intros H Hc E. pose proof H as [I _]. cbn [cb_inc grow_cb] in E.
  replace (set_vals (vals a) a) with a in E by (destruct a; reflexivity).
  rewrite (row_size chk I) in E. cbn [bind] in E. rewrite (row_capacity chk I) in E. cbn [bind] in E.
  assert (G : forall a' k', aok a' (A ++ (r, k') :: B) -> (p <- getSetValues chk a' (length A) ;; Ok (vals a', (a', 0), p)) = Ok (b1, x1, q) -> view b1 q r).
  { intros a' k' H' E'. pose proof H' as [I' _]. rewrite (row_values idv chk I') in E'. cbn [bind] in E'. injection E' as <- <- <-. exact (aok_view H'). }
  destruct (Nat.ltb_spec (length r + k) (length r + n)) as [L|L].
  - destruct (setCapacityOfArray chk true tw false kind a (length A) (newCap (length r + n))) as [a'| |] eqn:Ec; try discriminate. cbn [bind] in E.
    pose proof (@setCapacity_ok Z Z W idv fw chk true tw false a A r k B (length A) (newCap (length r + n)) H eq_refl) as S.
    apply (DebugProofs2.okb_get S) in Ec. cbv beta in Ec. rewrite firstn_all2 in Ec by (apply Hc; exact L). exact (G a' _ Ec E).
  - cbn [bind] in E. exact (G a k H E).
Qed.
Lemma view_any (a : aoa Z W) A r k B n b1 x1 q : aok a (A ++ (r, k) :: B) ->
  cb_inc (view_cb Z W chk (length A)) n (vals a, (a, 0)) = Ok (b1, x1, q) -> view b1 q r.
Proof.
  intros H E. pose proof H as [I _]. cbn [cb_inc view_cb] in E.
  replace (set_vals (vals a) a) with a in E by (destruct a; reflexivity).
  destruct (if chk then _ else Ok tt) as [u| |] in E; try discriminate. cbn [bind] in E. rewrite (row_values idv chk I) in E. cbn [bind] in E.
  injection E as <- <- <-. exact (aok_view H).
Qed.

Lemma quiet_imp (m m' : outcome (pattern W)) : imp m m' -> imp (quiet m) (quiet m').
Proof. intros H. unfold quiet. apply imp_bind; [ exact H | intros; apply imp_refl ]. Qed.
Lemma rows_imp (m m' : outcome (aoa Z W)) p : imp m m' -> imp (on_rows m p) (on_rows m' p).
Proof. intros H. unfold on_rows. apply imp_bind; [ exact H | intros; apply imp_refl ]. Qed.
Lemma with_imp R (m m' : outcome (aoa Z W * R)) p : imp m m' -> imp (with_rows p m) (with_rows p m').
Proof. intros H. unfold with_rows. apply imp_bind; [ exact H | intros; apply imp_refl ]. Qed.
Lemma on_one (M : list col_set) i f (M' : list col_set) (nc st : nat) : match on_elem M i f with Some M' => Some (M', nc) | None => None end = Some (M', st) -> exists S, nth_error M i = Some S.
Proof. unfold on_elem. destruct (nth_error M i); [ eauto | discriminate ]. Qed.

Lemma row_fits p M nc i S A r k B : prep p (M, nc) -> nth_error M i = Some S -> aok (rows p) (A ++ (r, k) :: B) -> length A = i -> length r <= nc.
Proof.
  intros (R & E & G) N H L. simpl in *. destruct R as (L1 & H1 & F). destruct (f2_at F N) as (A1 & r1 & k1 & B1 & -> & L2 & Rs & _).
  assert (Es : length r = length r1).
  { pose proof H as [I _]. pose proof H1 as [I1 _]. pose proof (row_size chk I) as Z1. pose proof (row_size chk I1) as Z2. rewrite L in Z1. rewrite L2 in Z2. congruence. }
  rewrite Es. pose proof (rowset_card zorder Rs) as C. simpl in C. eapply in_range_card; [ | exact C ]. exact (ranged_at G N).
Qed.
Lemma d_insertNonZeros_imp p M nc i S vs : prep p (M, nc) -> nth_error M i = Some S -> increasing Z.ltb vs ->
  imp (insertNonZeros chk tw false kind p i vs) (d_insertNonZeros dbg chk tw false kind p i vs).
Proof.
  intros PR N Iv. pose proof PR as (R & E & G). cbn [fst snd] in *. destruct (@seen Z W fw chk true tw Z.ltb (rows p) M i S R N) as (A & r & k & B & H & L & I & E1 & E2 & E3 & Vw).
  pose proof (row_fits PR N H L) as Fit. subst i.
  apply with_imp. unfold insertsIntoSetImpl, d_insertsIntoSetImpl.
  rewrite E1, E2, E3. cbn [bind]. apply imp_bind; [ | intros; apply imp_refl ].
  apply (i_inserts dbg chk true kind zorder); auto; [ intros; apply imp_refl | apply increasing_strong; exact Iv | intros; apply grow_imp | ].
  intros n b1 x1 q Eq. eapply grow_any; [ exact H | | exact Eq ]. intros m Lm. cbv beta. unfold clamp. rewrite E. destruct (nc <? m * 2); lia.
Qed.
Lemma d_insertNonZero_imp p M nc i S v : prep p (M, nc) -> nth_error M i = Some S ->
  imp (insertNonZero chk tw false kind p i v) (d_insertNonZero dbg chk tw false kind p i v).
Proof.
  intros PR N. pose proof PR as (R & E & G). cbn [fst snd] in *. destruct (@seen Z W fw chk true tw Z.ltb (rows p) M i S R N) as (A & r & k & B & H & <- & I & E1 & E2 & E3 & Vw).
  apply with_imp. unfold insertIntoSetImpl, d_insertIntoSetImpl.
  rewrite E1, E2, E3. cbn [bind]. apply imp_bind; [ | intros; apply imp_refl ].
  apply (i_sinsert dbg chk true kind zorder); auto; [ intros; apply imp_refl | intros; apply grow_imp ].
Qed.
Lemma d_v_insertNonZero_imp p M nc i S v : prep p (M, nc) -> nth_error M i = Some S ->
  imp (v_insertNonZero chk p i v) (d_v_insertNonZero dbg chk kind p i v).
Proof.
  intros PR N. pose proof PR as (R & E & G). cbn [fst snd] in *. destruct (@seen Z W fw chk true tw Z.ltb (rows p) M i S R N) as (A & r & k & B & H & <- & I & E1 & E2 & E3 & Vw).
  unfold v_insertNonZero, d_v_insertNonZero. do 2 same. apply with_imp. unfold v_insertIntoSet, insertIntoSetImpl, d_insertIntoSetImpl.
  rewrite E1, E2, E3. cbn [bind]. apply imp_bind; [ | intros; apply imp_refl ].
  apply (i_sinsert dbg chk true kind zorder); auto; intros; apply imp_refl.
Qed.
Lemma d_v_insertNonZeros_imp p M nc i S vs : prep p (M, nc) -> nth_error M i = Some S -> increasing Z.ltb vs ->
  imp (v_insertNonZeros chk p i vs) (d_v_insertNonZeros dbg chk kind p i vs).
Proof.
  intros PR N Iv. pose proof PR as (R & E & G). cbn [fst snd] in *. destruct (@seen Z W fw chk true tw Z.ltb (rows p) M i S R N) as (A & r & k & B & H & <- & I & E1 & E2 & E3 & Vw).
  unfold v_insertNonZeros, d_v_insertNonZeros. do 2 same. apply with_imp. unfold v_insertsIntoSet, insertsIntoSetImpl, d_insertsIntoSetImpl.
  rewrite E1, E2, E3. cbn [bind]. apply imp_bind; [ | intros; apply imp_refl ].
  apply (i_inserts dbg chk true kind zorder); auto; [ intros; apply imp_refl | apply increasing_strong; exact Iv | intros; apply imp_refl | ].
  intros n b1 x1 q Eq. exact (view_any H Eq).
Qed.
Lemma d_pstep_imp c p st st' : prep p st -> pallowed c st -> pat_step cmax c st = Some st' ->
  imp (pstep chk tw false kind cmax c p) (d_pstep dbg chk tw false kind cmax c p).
Proof.
  destruct st as [M nc]. destruct st' as [M' nc']. intros PR Al St. pose proof PR as (R & E & G). cbn [fst snd] in *.
  destruct c as [nr nc1 cap|nc1 caps|n|n|i n|i c| |c|i v|i vs|i v|i vs]; cbn [pstep d_pstep]; cbn [pat_step] in St; cbn [pallowed snd fst] in Al.
  - apply quiet_imp. unfold sp_resize, d_sp_resize. same. apply imp_bind; [ apply DebugProofs2.g_resizeImpl_i | intros; apply imp_refl ].
  - apply quiet_imp. unfold sp_resizeFromRowCapacities, d_sp_resizeFromRowCapacities. same.
    apply imp_bind; [ apply DebugProofs2.g_resizeFromCapacities_i | intros; apply imp_refl ].
  - apply quiet_imp, rows_imp, DebugProofs2.g_reserve_i.
  - apply quiet_imp, rows_imp, DebugProofs2.g_reserveValues_i.
  - apply quiet_imp. unfold reserveRow, d_reserveRow. same. destruct (n <=? _); [ apply imp_refl | ]. apply rows_imp, DebugProofs2.g_setCapacity_i.
  - apply quiet_imp, rows_imp, DebugProofs2.g_setCapacity_i.
  - destruct R as (L & H & _). apply quiet_imp, rows_imp. eapply DebugProofs2.g_compress_i; exact H.
  - apply quiet_imp. unfold appendRow, d_appendRow. apply imp_bind; [ apply DebugProofs2.g_push_i | ]. intros. apply rows_imp, DebugProofs2.g_setCapacity_i.
  - destruct (on_one St) as [S N]. apply imp_bind; [ exact (d_insertNonZero_imp PR N) | intros; apply imp_refl ].
  - destruct (on_one St) as [S N]. destruct Al as [Iv _]. exact (d_insertNonZeros_imp PR N Iv).
  - destruct (on_one St) as [S N]. destruct (@seen Z W fw chk true tw Z.ltb (rows p) M i S R N) as (A & r & k & B & H & <- & I & E1 & E2 & E3 & Vw).
    apply imp_bind; [ | intros; apply imp_refl ]. unfold removeNonZero, d_removeNonZero. do 2 same. apply with_imp.
    unfold removeFromSet, d_removeFromSet, removeFromSetImpl, d_removeFromSetImpl.
    rewrite E1, E2, E3. cbn [bind]. apply imp_bind; [ | intros; apply imp_refl ].
    apply (i_sremove dbg chk true kind zorder); auto. intros; apply imp_refl.
  - destruct (on_one St) as [S N]. destruct (@seen Z W fw chk true tw Z.ltb (rows p) M i S R N) as (A & r & k & B & H & <- & I & E1 & E2 & E3 & Vw).
    unfold removeNonZeros, d_removeNonZeros. do 2 same. apply with_imp.
    unfold removesFromSet, d_removesFromSet, removesFromSetImpl, d_removesFromSetImpl.
    rewrite E1, E2, E3. cbn [bind]. apply imp_bind; [ | intros; apply imp_refl ].
    apply (i_removes dbg chk true kind zorder); auto; [ intros; apply imp_refl | apply increasing_strong; apply Al ].
Qed.
Lemma d_prun_imp h : forall p st st', prep p st -> pvalid cmax h st -> pat_run cmax h st = Some st' ->
  imp (prun chk tw false kind cmax h p) (d_prun dbg chk tw false kind cmax h p).
Proof.
  induction h as [|c h IH]; intros p st st' R V St; [ apply imp_refl | ]. destruct V as [Ac V]. cbn [prun d_prun pat_run] in *.
  pose proof (@pstep_ok W w0 chk tw cmax c p st R Ac) as Ok1.
  destruct (pat_step cmax c st) as [st1|] eqn:E; [ | discriminate ].
  apply imp_bind; [ exact (d_pstep_imp R Ac E) | ]. intros [p1 r] E1.
  destruct Ok1 as ([p2 r2] & E2 & R1 & _). rewrite E1 in E2. injection E2 as <- <-. exact (IH p1 st1 st' R1 V St).
Qed.
End D.

(** * What a debug build with bounds checks finds *)
Section Bad.
Variable W : Type.
Variable w0 : W.
Variable tw : bool.
Variable cmax : Z.
Notation prep := (@prep W w0 tw).
Implicit Types p : pattern W.
Lemma not_unique vs : ~ increasing Z.ltb vs -> isSortedUnique Z.ltb vs = false.
Proof. intros N. destruct (isSortedUnique Z.ltb vs) eqn:E; [ | reflexivity ]. apply (isSortedUnique_iff (to_swo zorder)) in E. contradiction. Qed.
Lemma column_out p nc v : ncols p = nc -> ~ in_range nc v -> column_check true p v = Abort.
Proof.
  intros E N. unfold column_check, check_if. rewrite E. replace ((v <? 0) || (Z.of_nat nc <=? v))%Z with true; [ reflexivity | ].
  symmetry. apply orb_true_iff. unfold in_range in N. rewrite Z.ltb_lt, Z.leb_le. lia.
Qed.
Lemma columns_out p nc vs : ncols p = nc -> ~ Forall (in_range nc) vs -> column_checks true p vs = Abort.
Proof.
  intros E. induction vs as [|v vs IH]; intros N; [ destruct N; constructor | ]. cbn [column_checks].
  destruct (Z_lt_dec v 0) as [L|L]; [ rewrite (column_out E); [ reflexivity | unfold in_range; lia ] | ].
  destruct (Z_lt_dec v (Z.of_nat nc)) as [L'|L']; [ | rewrite (column_out E); [ reflexivity | unfold in_range; lia ] ].
  assert (Iv : in_range nc v) by (unfold in_range; lia).
  rewrite (check_range true E Iv). cbn [bind]. apply IH. intros K. apply N. constructor; assumption.
Qed.
Lemma unsorted_inserts p M nc i vs : prep p (M, nc) -> ~ increasing Z.ltb vs -> d_insertNonZeros true true tw false BMalloc p i vs = Abort.
Proof.
  intros (R & E & G) N. cbn [fst snd] in *. unfold d_insertNonZeros, with_rows, d_insertsIntoSetImpl. destruct (nth_error M i) as [S|] eqn:Ni.
  - destruct (@seen Z W (fun _ => w0) true true tw Z.ltb (rows p) M i S R Ni) as (A & r & k & B & H & <- & I & E1 & E2 & E3 & Vw). rewrite E1, E2, E3. cbn [bind].
    unfold d_inserts. rewrite (@ptr_ok Z true BMalloc _ _ _ Vw). cbn [bind].
    rewrite (@range_ok Z true _ _ _ _ Vw (unique_incr zorder I)). cbn [bind]. rewrite (not_unique N). reflexivity.
  - rewrite (@bad_check Z Z W (fun v => v) (fun _ => w0) true true tw false Z.ltb (rows p) M i eq_refl R Ni). reflexivity.
Qed.
Lemma unsorted_removes p M nc i vs : prep p (M, nc) -> ~ (increasing Z.ltb vs /\ Forall (in_range nc) vs) -> d_removeNonZeros true true BMalloc p i vs = Abort.
Proof.
  intros (R & E & G) N. cbn [fst snd] in *. unfold d_removeNonZeros, with_rows. destruct (nth_error M i) as [S|] eqn:Ni.
  - destruct (@seen Z W (fun _ => w0) true true tw Z.ltb (rows p) M i S R Ni) as (A & r & k & B & H & <- & I & E1 & E2 & E3 & Vw). rewrite E1. cbn [bind].
    destruct (column_checks true p vs) as [[]| |] eqn:Ck; try reflexivity.
    + cbn [bind]. unfold d_removesFromSet, d_removesFromSetImpl. rewrite E1, E2, E3. cbn [bind].
      unfold d_removes. rewrite (@ptr_ok Z true BMalloc _ _ _ Vw). cbn [bind].
      rewrite (@range_ok Z true _ _ _ _ Vw (unique_incr zorder I)). cbn [bind]. rewrite not_unique; [ reflexivity | ].
      intros K. apply N. split; [ exact K | ]. clear -Ck E. induction vs as [|v vs IH]; constructor; cbn [column_checks] in Ck.
      * unfold column_check, check_if in Ck. rewrite E in Ck. destruct ((v <? 0) || (Z.of_nat nc <=? v))%Z eqn:Q; [ discriminate | ].
        apply orb_false_iff in Q. rewrite Z.ltb_ge, Z.leb_gt in Q. unfold in_range. lia.
      * apply IH. destruct (column_check true p v); try discriminate. exact Ck.
    + exfalso. clear -Ck. induction vs as [|v vs IH]; cbn [column_checks] in Ck; [ discriminate | ].
      unfold column_check, check_if in Ck. destruct ((v <? 0) || (Z.of_nat (ncols p) <=? v))%Z in Ck; [ discriminate | ]. cbn [andb error_if bind] in Ck. exact (IH Ck).
  - rewrite (@bad_check Z Z W (fun v => v) (fun _ => w0) true true tw false Z.ltb (rows p) M i eq_refl R Ni). reflexivity.
Qed.
Lemma out_remove p M nc i v : prep p (M, nc) -> ~ in_range nc v -> d_removeNonZero true true BMalloc p i v = Abort.
Proof.
  intros (R & E & G) N. cbn [fst snd] in *. unfold d_removeNonZero. destruct (nth_error M i) as [S|] eqn:Ni.
  - rewrite (@rep_check W w0 true tw (rows p) M i S R Ni). cbn [bind]. rewrite (column_out E N). reflexivity.
  - rewrite (@bad_check Z Z W (fun v => v) (fun _ => w0) true true tw false Z.ltb (rows p) M i eq_refl R Ni). reflexivity.
Qed.
Lemma missing_row c p st : prep p st -> pallowed c st -> pat_step cmax c st = None -> d_pstep true true tw false BMalloc cmax c p = Abort.
Proof.
  destruct st as [M nc]. intros (R & E & G) Al St. cbn [fst snd] in *.
  assert (Bad : forall i, nth_error M i = None -> check_array true (rows p) i = Abort)
    by (intros i; apply (@bad_check Z Z W (fun v => v) (fun _ => w0) true true tw false Z.ltb (rows p) M i eq_refl R)).
  assert (No : forall i f, match on_elem M i f with Some M' => Some (M', nc) | None => None end = None -> check_array true (rows p) i = Abort).
  { intros i f K. apply Bad. unfold on_elem in K. destruct (nth_error M i); [ discriminate | reflexivity ]. }
  destruct c as [nr nc1 cap|nc1 caps|n|n|i n|i c| |c|i v|i vs|i v|i vs]; cbn [d_pstep]; cbn [pat_step] in St; try discriminate.
  - unfold d_sp_resize, check_numCols. destruct (cmax <? _)%Z; [ reflexivity | discriminate ].
  - unfold d_sp_resizeFromRowCapacities, check_numCols. destruct (cmax <? _)%Z; [ reflexivity | discriminate ].
  - unfold d_reserveRow, nonZeroCapacity, capacityOfArray. rewrite (No _ _ St). reflexivity.
  - unfold d_setRowCapacity, g_setCapacityOfArray. rewrite (No _ _ St). reflexivity.
  - unfold d_insertNonZero, d_insertIntoSetImpl. rewrite (No _ _ St). reflexivity.
  - unfold d_insertNonZeros, d_insertsIntoSetImpl. rewrite (No _ _ St). reflexivity.
  - unfold d_removeNonZero. rewrite (No _ _ St). reflexivity.
  - unfold d_removeNonZeros. rewrite (No _ _ St). reflexivity.
Qed.
End Bad.
