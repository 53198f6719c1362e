(** The assertions of a debug build in ArrayOfSets. *)
From Coq Require Import List Arith ZArith Lia Bool Sorting.Sorted.
From Verif Require Import Base BaseProofs Mem MemProofs BufferManip Debug DebugProofs Sorted SortedSpec SortedProofs SortedProofs2 SortedArraySpec
  AoA AoASpec AoALayout AoAProofs AoAProofs2 AoAProofs4 AoS AoSSpec SetsProofs SetsProofs2 AoSProofs DebugSorted DebugSortedProofs DebugSets.
From Verif Require DebugProofs2 AoSProofs2 ArrayManip.
Import ListNotations.
Set Implicit Arguments.
Unset Strict Implicit.

Section D.
Variables V W : Type.
Variable fw : V -> W.
Variables dbg chk tv tw : bool.
Variable lt eqb : V -> V -> bool.
Hypothesis T : total_order lt eqb.
Variable dflt : V.
Notation kind := BMalloc.
Notation aoa := (aoa V W).
Notation idv := (fun v : V => v).
Notation aok := (@aok V V W idv fw tv tw false).
Notation rep := (@SetsProofs2.rep V V W idv fw tv tw false lt).
Notation incr l := (StronglySorted (fun x y => lt x y = true) l).
Notation X := (aoa * nat)%type.
Implicit Types a : aoa.

Lemma aok_view a A r k B : aok a (A ++ (r, k) :: B) -> view (vals a) (length (flat idv A)) r.
Proof.
  intros [_ [Lv _]]. destruct (lay_row Lv) as [q Mm]. intros j x J. eapply MemProofs.rd_nth; [ exact Mm | ].
  rewrite nth_error_app2 by lia. rewrite Nat.add_comm, Nat.add_sub.
  rewrite map_map. rewrite nth_error_app1 by (rewrite map_length; apply nth_error_Some; rewrite J; discriminate).
  rewrite nth_error_map, J. reflexivity.
Qed.
Lemma seen a M i S : rep a M -> nth_error M i = Some S ->
  exists A r k B, aok a (A ++ (r, k) :: B) /\ length A = i /\ incr r /\
    check_array chk a i = Ok tt /\ sizeOfArray chk a i = Ok (length r) /\ getSetValues chk a i = Ok (length (flat idv A)) /\
    view (vals a) (length (flat idv A)) r.
Proof.
  intros (L & H & F) N. destruct (f2_at F N) as (A & r & k & B & -> & <- & [I _] & _). exists A, r, k, B.
  pose proof H as [Ia _]. split; [ exact H | ]. split; [ reflexivity | ]. split; [ exact I | ].
  split; [ exact (row_check chk Ia) | ]. split; [ exact (row_size chk Ia) | ]. split; [ exact (row_values idv chk Ia) | exact (aok_view H) ].
Qed.
Lemma on_some (M : list (V -> Prop)) i f M' : on_elem M i f = Some M' -> exists S, nth_error M i = Some S.
Proof. unfold on_elem. destruct (nth_error M i); [ eauto | discriminate ]. Qed.

Lemma grow_imp newCap i n st : imp (cb_inc (grow_cb V W chk tv tw false kind newCap i) n st) (cb_inc (d_grow_cb V W dbg chk tv tw false kind newCap i) n st).
Proof.
  destruct st as [b [x e]]. cbn [cb_inc grow_cb d_grow_cb]. apply imp_same. intros s _. apply imp_same. intros c _. apply imp_bind; [ | intros; apply imp_refl ].
  destruct (c <? s + n); [ apply DebugProofs2.g_setCapacity_i | apply imp_refl ].
Qed.
Lemma grow_view a A r k B n b1 x1 q : aok a (A ++ (r, k) :: B) ->
  cb_inc (aos_cb V W chk tv tw false kind (length A)) n (vals a, (a, 0)) = Ok (b1, x1, q) -> view b1 q r.
Proof.
  intros H E. pose proof (@grow_inc_ok V V W idv fw chk tv tw false (fun m => 2 * m) a A r k B n 0 H ltac:(discriminate) ltac:(intros; cbv beta; lia)) as G.
  unfold aos_cb in E. apply (DebugProofs2.okb_get G) in E. cbn in E. destruct E as (p & s & -> & Mm & _).
  intros j x J. eapply MemProofs.rd_nth; [ exact Mm | ].
  rewrite nth_error_app2 by lia. rewrite Nat.add_comm, Nat.add_sub.
  rewrite map_map.
  rewrite nth_error_app1 by (rewrite map_length; apply nth_error_Some; rewrite J; discriminate).
  rewrite nth_error_map, J. reflexivity.
Qed.

Lemma void_imp (m m' : outcome aoa) : imp m m' -> imp (void m) (void m').
Proof. intros H. unfold void. apply imp_bind; [ exact H | intros; apply imp_refl ]. Qed.
Lemma d_tstep_imp c a M M' : rep a M -> tallowed lt c -> set_step lt c M = Some M' ->
  imp (tstep chk tv tw false kind lt eqb dflt c a) (d_tstep dbg chk tv tw false kind lt eqb dflt c a).
Proof.
  intros R Al St. destruct c as [n cap|caps|n|n| |cap|i cap|i|i v|i vs|i v|i vs|i|i c|i c]; simpl tstep; simpl d_tstep; simpl in Al, St.
  - apply void_imp, DebugProofs2.g_resizeImpl_i.
  - apply void_imp, DebugProofs2.g_resizeFromCapacities_i.
  - apply void_imp, DebugProofs2.g_reserve_i.
  - apply void_imp, DebugProofs2.g_reserveValues_i.
  - destruct R as (L & H & _). apply void_imp. eapply DebugProofs2.g_compress_i; exact H.
  - apply void_imp. unfold appendSet, d_appendSet. apply imp_bind; [ apply DebugProofs2.g_push_i | ]. intros. apply DebugProofs2.g_setCapacity_i.
  - apply void_imp. unfold insertSet, d_insertSet. apply imp_bind; [ apply DebugProofs2.g_open_i | ]. intros. apply DebugProofs2.g_setCapacity_i.
  - apply void_imp. apply DebugProofs2.g_eraseArray_i.
  - destruct (on_some St) as [S N]. destruct (seen R N) as (A & r & k & B & H & <- & I & E1 & E2 & E3 & Vw).
    apply imp_bind; [ | intros; apply imp_refl ]. unfold insertIntoSet, d_insertIntoSet, insertIntoSetImpl, d_insertIntoSetImpl.
    rewrite E1, E2, E3. cbn [bind]. apply imp_bind; [ | intros; apply imp_refl ].
    apply i_sinsert; auto; [ intros; apply imp_refl | intros; apply grow_imp ].
  - destruct (on_some St) as [S N]. destruct (seen R N) as (A & r & k & B & H & <- & I & E1 & E2 & E3 & Vw).
    unfold insertsIntoSet, d_insertsIntoSet, insertsIntoSetImpl, d_insertsIntoSetImpl.
    rewrite E1, E2, E3. cbn [bind]. apply imp_bind; [ | intros; apply imp_refl ].
    apply i_inserts; auto; [ intros; apply imp_refl | apply increasing_strong; exact Al | intros; apply grow_imp | ].
    intros n b1 x1 q E. exact (grow_view H E).
  - destruct (on_some St) as [S N]. destruct (seen R N) as (A & r & k & B & H & <- & I & E1 & E2 & E3 & Vw).
    apply imp_bind; [ | intros; apply imp_refl ]. unfold removeFromSet, d_removeFromSet, removeFromSetImpl, d_removeFromSetImpl.
    rewrite E1, E2, E3. cbn [bind]. apply imp_bind; [ | intros; apply imp_refl ].
    apply i_sremove; auto. intros; apply imp_refl.
  - destruct (on_some St) as [S N]. destruct (seen R N) as (A & r & k & B & H & <- & I & E1 & E2 & E3 & Vw).
    unfold removesFromSet, d_removesFromSet, removesFromSetImpl, d_removesFromSetImpl.
    rewrite E1, E2, E3. cbn [bind]. apply imp_bind; [ | intros; apply imp_refl ].
    apply i_removes; auto; [ intros; apply imp_refl | apply increasing_strong; exact Al ].
  - apply void_imp. unfold clearSet, d_clearSet. apply imp_same. intros _ _. apply imp_same. intros n _. apply imp_same. intros p _.
    apply imp_bind; [ apply i_resize; lia | intros; apply imp_refl ].
  - apply void_imp. apply DebugProofs2.g_setCapacity_i.
  - apply void_imp. unfold reserveCapacityOfSet, d_reserveCapacityOfSet. apply imp_same. intros _ _. apply imp_same. intros n _.
    destruct (n <? c); [ apply DebugProofs2.g_setCapacity_i | apply imp_refl ].
Qed.
Lemma d_trun_imp h : forall a M M', rep a M -> Forall (tallowed lt) h -> set_run lt h M = Some M' ->
  imp (trun chk tv tw false kind lt eqb dflt h a) (d_trun dbg chk tv tw false kind lt eqb dflt h a).
Proof.
  induction h as [|c h IH]; intros a M M' R F St; [ apply imp_refl | ]. inversion F as [|? ? Ac Ah]; subst. cbn [trun d_trun set_run] in *.
  destruct (set_step lt c M) as [M1|] eqn:E; [ | discriminate ].
  apply imp_bind; [ exact (d_tstep_imp R Ac E) | ]. intros [a1 r] E1.
  pose proof (@tstep_ok V W fw chk tv tw lt eqb T dflt c a M R Ac) as Ok1. rewrite E in Ok1. apply (DebugProofs2.okb_get Ok1) in E1. cbn in E1.
  destruct E1 as [R1 _]. exact (IH a1 M1 M' R1 Ah St).
Qed.
End D.

(** * What a debug build with bounds checks finds *)
Section Bad.
Variables V W : Type.
Variable fw : V -> W.
Variables tv tw : bool.
Variable lt eqb : V -> V -> bool.
Hypothesis T : total_order lt eqb.
Variable dflt : V.
Notation rep := (@SetsProofs2.rep V V W (fun v : V => v) fw tv tw false lt).
Lemma d_tstep_bad c (a : aoa V W) M : rep a M -> (tallowed lt c -> set_step lt c M = None) ->
  d_tstep true true tv tw false BMalloc lt eqb dflt c a = Abort.
Proof.
  intros R Bad.
  assert (Un : forall vs, ~ increasing lt vs -> isSortedUnique lt vs = false).
  { intros vs N. destruct (isSortedUnique lt vs) eqn:E; [ | reflexivity ]. apply (isSortedUnique_iff (to_swo T)) in E. contradiction. }
  assert (C : forall i, nth_error M i = None -> check_array true a i = Abort) by (intros i; apply (@bad_check V V W (fun v => v) fw true tv tw false lt a M i eq_refl R)).
  assert (No : forall i f, on_elem M i f = None -> nth_error M i = None) by (intros i f; unfold on_elem; destruct (nth_error M i); [ discriminate | reflexivity ]).
  assert (Ch : forall i, i < length M \/ check_array true a i = Abort).
  { intros i. destruct (Nat.ltb_spec i (length M)); [ left; assumption | right; apply C, nth_error_None; assumption ]. }
  destruct c as [n cap|caps|n|n| |cap|i cap|i|i v|i vs|i v|i vs|i|i c|i c]; simpl d_tstep; simpl in Bad; try (specialize (Bad Logic.I)); try discriminate.
  - destruct (Nat.leb_spec i (length M)) as [|L]; [ discriminate | ]. unfold d_insertSet, g_open_array.
    rewrite (@bad_insert V V W (fun v => v) fw true tv tw false lt a M i eq_refl R L). reflexivity.
  - destruct (Nat.ltb_spec i (length M)) as [|L]; [ discriminate | ]. unfold g_eraseArray. rewrite (C i) by (apply nth_error_None; exact L). reflexivity.
  - unfold d_insertIntoSet, d_insertIntoSetImpl. rewrite (C i (No _ _ Bad)). reflexivity.
  - unfold d_insertsIntoSet, d_insertsIntoSetImpl. destruct (nth_error M i) as [S|] eqn:N; [ | rewrite (C i N); reflexivity ].
    destruct (@seen V W fw true tv tw lt a M i S R N) as (A & r & k & B & H & <- & I & E1 & E2 & E3 & Vw). rewrite E1, E2, E3. cbn [bind].
    unfold d_inserts. rewrite (@ptr_ok V true BMalloc _ _ _ Vw). cbn [bind].
    rewrite (@range_ok V true _ _ _ _ Vw (unique_incr T I)). cbn [bind]. rewrite Un; [ reflexivity | ].
    intros K. specialize (Bad K). unfold on_elem in Bad. rewrite N in Bad. discriminate.
  - unfold d_removeFromSet, d_removeFromSetImpl. rewrite (C i (No _ _ Bad)). reflexivity.
  - unfold d_removesFromSet, d_removesFromSetImpl. destruct (nth_error M i) as [S|] eqn:N; [ | rewrite (C i N); reflexivity ].
    destruct (@seen V W fw true tv tw lt a M i S R N) as (A & r & k & B & H & <- & I & E1 & E2 & E3 & Vw). rewrite E1, E2, E3. cbn [bind].
    unfold d_removes. rewrite (@ptr_ok V true BMalloc _ _ _ Vw). cbn [bind].
    rewrite (@range_ok V true _ _ _ _ Vw (unique_incr T I)). cbn [bind]. rewrite Un; [ reflexivity | ].
    intros K. specialize (Bad K). unfold on_elem in Bad. rewrite N in Bad. discriminate.
  - unfold d_clearSet. rewrite (C i (No _ _ Bad)). reflexivity.
  - unfold g_setCapacityOfArray. rewrite (C i (No _ _ Bad)). reflexivity.
  - unfold d_reserveCapacityOfSet. rewrite (C i (No _ _ Bad)). reflexivity.
Qed.
Lemma allowed_dec (c : tcall V) : {tallowed lt c} + {~ tallowed lt c}.
Proof.
  assert (K : forall vs : list V, {increasing lt vs} + {~ increasing lt vs}).
  { intros vs. destruct (isSortedUnique lt vs) eqn:E; [ left; apply (isSortedUnique_iff (to_swo T)); exact E | right; intros N ].
    apply (isSortedUnique_iff (to_swo T)) in N. congruence. }
  destruct c; simpl; auto.
Qed.
End Bad.
Lemma d_trun_total V W fw tw (lt eqb : V -> V -> bool) (T : total_order lt eqb) (dflt : V) h : forall (a : aoa V W) M,
  @SetsProofs2.rep V V W (fun v : V => v) fw true tw false lt a M ->
  match (if forallb (fun c => if allowed_dec T c then true else false) h then set_run lt h M else None) with
  | Some M' => oks (d_trun true true true tw false BMalloc lt eqb dflt h a) (fun a' => @SetsProofs2.rep V V W (fun v : V => v) fw true tw false lt a' M')
  | None => d_trun true true true tw false BMalloc lt eqb dflt h a = Abort
  end.
Proof.
  induction h as [|c h IH]; intros a M R; [ cbn; exists a; auto | ]. cbn [forallb set_run d_trun].
  destruct (allowed_dec T c) as [Ac|Ac]; cbn [andb].
  2: { rewrite (@d_tstep_bad V W fw true tw lt eqb T dflt c a M R); [ reflexivity | contradiction ]. }
  destruct (set_step lt c M) as [M1|] eqn:E.
  2: { rewrite (@d_tstep_bad V W fw true tw lt eqb T dflt c a M R (fun _ => E)). destruct (forallb _ h); reflexivity. }
  pose proof (@tstep_ok V W fw true true tw lt eqb T dflt c a M R Ac) as Ok1. rewrite E in Ok1.
  destruct Ok1 as [([a1 r] & E1 & R1 & _)|[K _]]; [ | discriminate ].
  rewrite (@d_tstep_imp V W fw true true true tw lt eqb T dflt c a M M1 R Ac E _ E1). cbn [bind]. exact (IH a1 M1 R1).
Qed.

(** * assimilate *)
Section Assim.
Variables V W : Type.
Variable fw : V -> W.
Variables dbg chk tv tw : bool.
Variable lt eqb : V -> V -> bool.
Hypothesis T : total_order lt eqb.
Variable dflt : V.
Variable sort : buf V -> nat -> nat -> outcome (buf V).
Hypothesis HS : sorts lt sort.
Notation idv := (fun v : V => v).
Notation aok := (@aok V V W idv fw tv tw false).
Notation LVs := (map (@LV V)).
Notation becomes := (@AoSProofs2.becomes V W fw tv tw lt).

Lemma mem_view (b : buf V) p l s : mem tv b (p ++ LVs l ++ s) -> view b (length p) l.
Proof.
  intros Mm j x J. eapply MemProofs.rd_nth; [ exact Mm | ]. rewrite nth_error_app2 by lia. rewrite Nat.add_comm, Nat.add_sub.
  rewrite nth_error_app1 by (rewrite map_length; apply nth_error_Some; rewrite J; discriminate). rewrite nth_error_map, J. reflexivity.
Qed.
Lemma dedup_eq b p l s : mem tv b (p ++ LVs l ++ s) -> sorted lt l ->
  d_removeDuplicates dbg tv lt b (length p) (length l) = removeDuplicates tv lt b (length p) (length l).
Proof.
  intros M So. unfold d_removeDuplicates. rewrite (@range_ok V dbg _ _ _ _ (mem_view M)); [ reflexivity | ]. apply (isSorted_iff (to_swo T)). exact So.
Qed.
Lemma sortdedup_eq b p l s : mem tv b (p ++ LVs l ++ s) ->
  d_makeSortedUnique dbg tv lt sort b (length p) (length l) = makeSortedUnique tv lt sort b (length p) (length l).
Proof.
  intros M. unfold d_makeSortedUnique, makeSortedUnique. destruct (AoSProofs2.sort_mem HS M) as (b' & -> & l' & M' & Pe & So). cbn [bind].
  rewrite (Permutation.Permutation_length Pe). exact (dedup_eq M' So).
Qed.
(** one row *)
Lemma unique_eq f f' (Q : list V -> Prop) :
  (forall b p l s, mem tv b (p ++ LVs l ++ s) -> Q l -> f' b (length p) (length l) = f b (length p) (length l)) ->
  (forall b p l s b' u, mem tv b (p ++ LVs l ++ s) -> Q l -> f b (length p) (length l) = Ok (b', u) -> length b' = length b) ->
  becomes (unique_set chk tv dflt f) Q ->
  forall (a : aoa V W) A r k B, aok a (A ++ (r, k) :: B) -> Q r ->
  d_unique_set dbg chk tv BMalloc dflt f' a (length A) = unique_set chk tv dflt f a (length A).
Proof.
  intros Hf Hl Hb a A r k B H Hq. destruct (Hb a A r k B H Hq) as (a' & E & _). rewrite E. revert a' E.
  fold (imp (unique_set chk tv dflt f a (length A)) (d_unique_set dbg chk tv BMalloc dflt f' a (length A))).
  pose proof H as [I [Ev _]]. unfold unique_set, d_unique_set. rewrite (row_values idv chk I), (row_size chk I). cbn [bind].
  destruct (lay_row Ev) as [q M]. rewrite map_id in M. rewrite (Hf _ _ _ _ M Hq). apply imp_same. intros [b u] Ef.
  apply imp_bind; [ | intros; apply imp_refl ]. apply i_resize. intros _ P. rewrite (Hl _ _ _ _ _ _ M Hq Ef).
  apply f2_len in M. rewrite M, !app_length, map_length. lia.
Qed.
(** all rows *)
Lemma each_eq f f' Q : becomes f Q -> (forall (a : aoa V W) A r k B, aok a (A ++ (r, k) :: B) -> Q r -> f' a (length A) = f a (length A)) ->
  forall a L, aok a L -> Forall Q (map fst L) -> each_set f' a = each_set f a.
Proof.
  intros Hf Eq a L H HQ. unfold each_set. pose proof H as [(N & _) _]. rewrite N.
  assert (G : forall L2 L1 a, aok a (L1 ++ L2) -> Forall Q (map fst L2) ->
     for_up (length L2) (fun i a => f' a i) (length L1) a = for_up (length L2) (fun i a => f a i) (length L1) a).
  { induction L2 as [|[r k] L2 IH]; intros L1 a1 H1 Q1; [ reflexivity | ]. cbn [length for_up]. simpl in Q1.
    rewrite (Eq a1 L1 r k L2 H1 (Forall_inv Q1)). destruct (Hf a1 L1 r k L2 H1 (Forall_inv Q1)) as (a2 & -> & r' & k' & H2 & _). cbn [bind].
    specialize (IH (L1 ++ [(r', k')]) a2). rewrite app_length in IH. simpl length in IH. rewrite <- app_assoc in IH. rewrite Nat.add_1_r in IH. rewrite ?Nat.add_1_r.
    apply IH; [ exact H2 | exact (Forall_inv_tail Q1) ]. }
  exact (G L [] a H HQ).
Qed.
Lemma each_bad f f' Q : becomes f Q -> (forall (a : aoa V W) A r k B, aok a (A ++ (r, k) :: B) -> Q r -> f' a (length A) = f a (length A)) ->
  (forall (a : aoa V W) A r k B, aok a (A ++ (r, k) :: B) -> ~ Q r -> f' a (length A) = Abort) -> (forall r, Q r \/ ~ Q r) ->
  forall a L, aok a L -> ~ Forall Q (map fst L) -> each_set f' a = Abort.
Proof.
  intros Hf Eq Bad Dec a L H HQ. unfold each_set. pose proof H as [(N & _) _]. rewrite N.
  assert (G : forall L2 L1 a, aok a (L1 ++ L2) -> ~ Forall Q (map fst L2) ->
     for_up (length L2) (fun i a => f' a i) (length L1) a = Abort).
  { induction L2 as [|[r k] L2 IH]; intros L1 a1 H1 Q1; [ destruct Q1; constructor | ]. cbn [length for_up]. simpl in Q1.
    destruct (Dec r) as [Qr|Nr]; [ | rewrite (Bad a1 L1 r k L2 H1 Nr); reflexivity ].
    rewrite (Eq a1 L1 r k L2 H1 Qr). destruct (Hf a1 L1 r k L2 H1 Qr) as (a2 & -> & r' & k' & H2 & _). cbn [bind].
    specialize (IH (L1 ++ [(r', k')]) a2). rewrite app_length in IH. simpl length in IH. rewrite <- app_assoc in IH. rewrite Nat.add_1_r in IH. rewrite ?Nat.add_1_r.
    apply IH; [ exact H2 | ]. intros K. apply Q1. constructor; auto. }
  exact (G L [] a H HQ).
Qed.
Lemma rd_len (b : buf V) p l s b' u : mem tv b (p ++ LVs l ++ s) -> sorted lt l ->
  removeDuplicates tv lt b (length p) (length l) = Ok (b', u) -> length b' = length b.
Proof.
  intros M So E. apply sorted_strong in So.
  destruct (@removeDuplicates_ok V tv lt (to_swo T) b p s l _ _ M eq_refl eq_refl So) as ([b1 u1] & E1 & us & g & M1 & _ & Ln & _).
  rewrite E in E1. injection E1 as <- <-. cbn [fst] in M1. apply f2_len in M, M1. rewrite M, M1, !app_length, !map_length. lia.
Qed.
Lemma dedup_row_eq (a : aoa V W) A r k B : aok a (A ++ (r, k) :: B) -> sorted lt r ->
  d_unique_set dbg chk tv BMalloc dflt (d_removeDuplicates dbg tv lt) a (length A) = unique_set chk tv dflt (removeDuplicates tv lt) a (length A).
Proof.
  apply (@unique_eq (removeDuplicates tv lt) (d_removeDuplicates dbg tv lt) (fun r => sorted lt r)).
  - intros b p l s M So. exact (dedup_eq M So).
  - intros b p l s b' u M So E. exact (rd_len M So E).
  - apply (@AoSProofs2.dedup_row V W fw chk tv tw lt eqb T dflt).
Qed.
Lemma sortdedup_row_eq (a : aoa V W) A r k B : aok a (A ++ (r, k) :: B) -> True ->
  d_unique_set dbg chk tv BMalloc dflt (d_makeSortedUnique dbg tv lt sort) a (length A) = unique_set chk tv dflt (makeSortedUnique tv lt sort) a (length A).
Proof.
  apply (@unique_eq (makeSortedUnique tv lt sort) (d_makeSortedUnique dbg tv lt sort) (fun _ => True)).
  - intros b p l s M _. exact (sortdedup_eq M).
  - intros b p l s b' u M _ E. unfold makeSortedUnique in E. destruct (AoSProofs2.sort_mem HS M) as (b1 & E1 & l' & M' & Pe & So).
    rewrite E1 in E. cbn [bind] in E. rewrite (Permutation.Permutation_length Pe) in E. rewrite (rd_len M' So E).
    apply f2_len in M, M'. rewrite M, M', !app_length, !map_length. rewrite (Permutation.Permutation_length Pe). reflexivity.
  - apply (@AoSProofs2.sortdedup_row V W fw chk tv tw lt eqb T dflt sort HS).
Qed.
Lemma d_assimilate_eq this src L d : (exists L0, @pok V V W idv fw tv tw false this L0) -> aok src L -> Forall (truthful lt d) (map fst L) ->
  d_aos_assimilate dbg chk tv tw false BMalloc lt dflt sort this src d = aos_assimilate chk tv tw false BMalloc lt dflt sort this src d.
Proof.
  intros [L0 H0] H F. unfold d_aos_assimilate, aos_assimilate. destruct (free_ok chk H0) as (t & E & _).
  rewrite E, (@DebugProofs2.g_free_i V W dbg chk tv tw this t E). cbn [bind]. destruct d; cbn [truthful] in F; try reflexivity.
  - eapply each_eq; [ apply (@AoSProofs2.dedup_row V W fw chk tv tw lt eqb T dflt) | apply dedup_row_eq | exact H | exact F ].
  - eapply each_eq; [ apply (@AoSProofs2.sortdedup_row V W fw chk tv tw lt eqb T dflt sort HS) | apply sortdedup_row_eq | exact H | exact F ].
Qed.
End Assim.
Lemma d_assimilate_bad V W fw chk tv tw (lt eqb : V -> V -> bool) (T : total_order lt eqb) dflt sort (HS : sorts lt sort) (this src : aoa V W) L :
  (exists L0, @pok V V W (fun v => v) fw tv tw false this L0) -> @aok V V W (fun v => v) fw tv tw false src L ->
  ~ Forall (fun r => sorted lt r) (map fst L) ->
  d_aos_assimilate true chk tv tw false BMalloc lt dflt sort this src SortedWithDuplicates = Abort.
Proof.
  intros [L0 H0] H F. unfold d_aos_assimilate. destruct (free_ok chk H0) as (t & E & _).
  rewrite (@DebugProofs2.g_free_i V W true chk tv tw this t E). cbn [bind].
  eapply each_bad; [ apply (@AoSProofs2.dedup_row V W fw chk tv tw lt eqb T dflt) | | | | exact H | exact F ].
  - intros a A r k B Ha So. exact (@dedup_row_eq V W fw true chk tv tw lt eqb T dflt a A r k B Ha So).
  - intros a A r k B Ha So. pose proof Ha as [I _]. unfold d_unique_set. rewrite (row_values (fun v => v) chk I), (row_size chk I). cbn [bind].
    unfold d_removeDuplicates, assert_range. pose proof (aok_view Ha) as Vw. rewrite (reads_view Vw). cbn [bind].
    destruct (isSorted lt r) eqn:Q; [ apply (isSorted_iff (to_swo T)) in Q; contradiction | reflexivity ].
  - intros r. destruct (isSorted lt r) eqn:Q; [ left; apply (isSorted_iff (to_swo T)); exact Q | right; intros K; apply (isSorted_iff (to_swo T)) in K; congruence ].
Qed.
