(** A CRSMatrix with one damaged row: its destructor, what can still be read. *)
From Coq Require Import List Arith ZArith Lia Bool Sorting.Sorted.
From Verif Require Import Base BaseProofs Mem MemProofs ArrayManipProofs BufferManip BufferManipProofs Sorted SortedSpec SortedProofs SortedProofs2
  AoA AoASpec AoALayout AoAProofs AoAProofs2 AoAProofs3 AoS AoSSpec SetsProofs SetsProofs2 Sparsity SparsitySpec SparsityProofs CRS CRSSpec CRSProofs.
From Verif Require ArrayManip ThrowAoAProofs CRSProofs2.
Import ListNotations.
Set Implicit Arguments.
Unset Strict Implicit.

Section Dtor.
Variable W : Type.
Variable chk : bool.
Notation P := (Z * W)%type.
Notation fv := (@fst Z W).
Notation fw := (@snd Z W).
Notation aoa := (aoa Z W).
Notation row := (list P * nat)%type.
Notation lines := (list row).
Notation aok := (@aok P Z W fv fw true false true).
Notation iok := (@iok P Z W).
Notation LZs := (map (@LV Z)).
Notation LWs := (map (@LV W)).
Implicit Types a t : aoa.
Implicit Types A B L : lines.
Implicit Types C p s : list (lcell W).

(** The numbers, the columns, and the entries of row [r] of capacity [length r + k]. *)
Definition hurt t A (r : list P) (k : nat) B (D : list (lcell Z)) C : Prop :=
  iok t (A ++ (r, k) :: B) /\ length D = length r + k /\ length C = length r + k /\
  (exists q, mem true (vals t) (flat fv A ++ D ++ flat fv B ++ repeat LN q)) /\
  (exists q, mem false (ents t) (flat fw A ++ C ++ flat fw B ++ repeat LN q)).

Lemma hurt_cast t A r k B D D' C C' : hurt t A r k B D C -> D = D' -> C = C' -> hurt t A r k B D' C'.
Proof. intros H -> ->. exact H. Qed.
Lemma hurt_aok t A r k B : hurt t A r k B (LZs (map fv r) ++ repeat LN k) (LWs (map fw r) ++ repeat LN k) -> aok t (A ++ (r, k) :: B).
Proof.
  intros (I & _ & _ & [q M] & q' & M'). split; [exact I|]. split; [|intros _].
  - apply row_lay with (q := q). eapply mem_cast; [exact M|]. lapp. auto.
  - apply row_lay with (q := q'). eapply mem_cast; [exact M'|]. lapp. auto.
Qed.

Notation destroys X tr t := (fun i (b : buf X) => o <- offset t i ;; s <- sizeOfArray chk t i ;; ArrayManip.destroy tr b o s).

(** Integers have no destructor. *)
Lemma destroy_true n : forall (b : buf Z) i, i + n <= length b -> ArrayManip.destroy true b i n = Ok b.
Proof.
  unfold ArrayManip.destroy. intros b i. assert (G : forall m j, i + j + m <= length b -> for_up m (fun k b => destroy1 true b (i + k)) j b = Ok b).
  { induction m as [|m IH]; intros j H; cbn [for_up]; [reflexivity|]. unfold destroy1 at 1.
    destruct (nth_error b (i + j)) as [c|] eqn:E; [|apply nth_error_None in E; lia]. unfold aget. rewrite E. cbn [bind]. apply IH. lia. }
  intros H. apply G. lia.
Qed.
Lemma destroys_true t L (b : buf Z) : iok t L -> total L <= length b -> for_up (length L) (destroys Z true t) 0 b = Ok b.
Proof.
  intros I H. assert (G : forall m j, j + m = length L -> for_up m (destroys Z true t) j b = Ok b).
  { induction m as [|m IH]; intros j E; cbn [for_up]; [reflexivity|].
    destruct (nth_error L j) as [x|] eqn:N; [|apply nth_error_None in N; lia].
    rewrite (offset_at I) by lia. cbn [bind]. rewrite (sizeOf_at chk I N). cbn [bind]. rewrite destroy_true; [cbn [bind]; apply IH; lia|].
    apply nth_error_split in N. destruct N as (L1 & L2 & -> & <-). rewrite firstn_app_exact by auto. rewrite total_app in H. cbn [total] in H. unfold wid in H at 1. lia. }
  apply G. reflexivity.
Qed.
Lemma entries_before t A r k B C q : iok t (A ++ (r, k) :: B) -> forall b, mem false b (flat fw A ++ C ++ flat fw B ++ repeat LN q) ->
  oks (for_up (length A) (destroys W false t) 0 b) (fun b' => mem false b' (repeat LN (total A) ++ C ++ flat fw B ++ repeat LN q)).
Proof.
  intros I b M. eapply (@rows_destroy P W fw false A b [] (C ++ flat fw B ++ repeat LN q) 0).
  - exact M.
  - intros j x N b0. cbn beta. assert (j < length A) by (apply nth_error_Some; congruence). cbn [plus].
    rewrite (offset_at I) by len. cbn [bind].
    rewrite (sizeOf_at chk (r := x) I) by (rewrite nth_error_app1 by lia; exact N). cbn [bind].
    f_equal. rewrite firstn_app. replace (j - length A) with 0 by lia. rewrite firstn_O, app_nil_r. reflexivity.
Qed.
Lemma dtor_unfold t nc L : iok t L -> total L <= length (vals t) ->
  crs_dtor chk false BMalloc (mkSP t nc) = (b <- for_up (length L) (destroys W false t) 0 (ents t) ;; _ <- release false b ;; Ok tt).
Proof.
  intros I H. pose proof I as (N & O & Z0). unfold crs_dtor, aoa_free, destroyValues. cbn [rows]. rewrite N.
  rewrite (check_insert_at chk I) by lia. cbn [bind]. rewrite (check_insert_at chk I) by lia. cbn [bind].
  rewrite Nat.sub_0_r. unfold each. rewrite (destroys_true I H). cbn [bind].
  destruct (for_up (length L) _ 0 (ents t)) as [b| |]; cbn [bind]; auto. cbn [szs offs].
  unfold free_buffer at 1 2. rewrite (holds_nil_cap (holds_forget (xs := []) Z0)). cbn [bind].
  rewrite (holds_nil_cap (holds_forget (xs := []) O)). cbn [bind]. cbn [vals ents]. unfold free_buffer, release at 1. cbn [orb bind].
  destruct (release false b) as [[]| |]; reflexivity.
Qed.
Lemma hurt_fits t A r k B D C : hurt t A r k B D C -> total (A ++ (r, k) :: B) <= length (vals t).
Proof.
  intros (I & L & _ & [q M] & _). apply mem_length in M. rewrite M, !app_length, !flat_length. rewrite total_app. cbn [total]. unfold wid at 1. cbn [fst snd]. lia.
Qed.

Lemma dtor_corrupt t nc A r k B D p s : hurt t A r k B D (p ++ LN :: s) -> Forall live p -> length p < length r ->
  crs_dtor chk false BMalloc (mkSP t nc) = Fault FDestroy.
Proof.
  intros H F Lt. pose proof (hurt_fits H) as Fi. destruct H as (I & _ & L & _ & q & M). rewrite (dtor_unfold nc I Fi).
  replace (length (A ++ (r, k) :: B)) with (length A + (1 + length B)) by len. rewrite ThrowAoAProofs.for_up_plus.
  destruct (entries_before I M) as (b1 & E1 & M1). rewrite E1. cbn [bind plus for_up].
  pose proof (row_values fv chk I) as Eo. unfold getSetValues in Eo. rewrite (row_check chk I) in Eo. cbn [bind] in Eo. rewrite Eo. cbn [bind].
  rewrite (row_size chk I). cbn [bind].
  rewrite (@ThrowAoAProofs.destroy_hits_at W b1 (repeat LN (total A)) p (s ++ flat fw B ++ repeat LN q) (length r)); auto.
  - eapply mem_cast; [exact M1|]. lapp. auto.
  - rewrite flat_length, repeat_length. reflexivity.
Qed.
Lemma dtor_forgets t nc A r k B D p s1 v s2 : hurt t A r k B D (p ++ s1 ++ LV v :: s2) -> Forall live p -> length p = length r ->
  crs_dtor chk false BMalloc (mkSP t nc) = Fault FLeak.
Proof.
  intros H F Lp. pose proof (hurt_fits H) as Fi. destruct H as (I & _ & L & _ & q & M). rewrite (dtor_unfold nc I Fi).
  replace (length (A ++ (r, k) :: B)) with (length A + (1 + length B)) by len. rewrite ThrowAoAProofs.for_up_plus.
  destruct (entries_before I M) as (b1 & E1 & M1). rewrite E1. cbn [bind].
  rewrite ThrowAoAProofs.for_up_plus. cbn [plus for_up].
  pose proof (row_values fv chk I) as Eo. unfold getSetValues in Eo. rewrite (row_check chk I) in Eo. cbn [bind] in Eo. rewrite Eo. cbn [bind].
  rewrite (row_size chk I). cbn [bind].
  destruct (@destroy_ok W false b1 (repeat LN (total A)) p ((s1 ++ LV v :: s2) ++ flat fw B ++ repeat LN q) (length (flat fv A)) (length r))
    as (b2 & E2 & M2); auto.
  - eapply mem_cast; [exact M1|]. lapp. auto.
  - rewrite flat_length, repeat_length. reflexivity.
  - rewrite E2. cbn [bind].
    assert (OK : oks (for_up (length B) (destroys W false t) (length A + 1) b2)
      (fun b' => mem false b' ((repeat LN (total A + length r) ++ s1 ++ LV v :: s2) ++ repeat LN (total B) ++ repeat LN q))).
    { eapply (@rows_destroy P W fw false B b2 (repeat LN (total A + length r) ++ s1 ++ LV v :: s2) (repeat LN q) (length A + 1)).
      - eapply mem_cast; [exact M2|]. rewrite repeat_app_add. lapp. auto.
      - intros j x N b0. cbn beta. assert (j < length B) by (apply nth_error_Some; congruence).
        rewrite (offset_at I) by len. cbn [bind].
        rewrite (sizeOf_at chk (r := x) I).
        2:{ rewrite nth_error_app2 by lia. replace (length A + 1 + j - length A) with (S j) by lia. exact N. }
        cbn [bind]. f_equal. rewrite firstn_app, firstn_all2 by lia. replace (length A + 1 + j - length A) with (S j) by lia.
        rewrite total_app. cbn [firstn total]. unfold wid at 1. cbn [fst snd]. rewrite app_length in L. rewrite app_length, repeat_length. lia. }
    destruct OK as (b3 & E3 & M3). rewrite E3. cbn [bind]. unfold release. cbn [orb].
    replace (forallb (@is_raw W) b3) with false; [reflexivity|]. symmetry.
    assert (M4 : mem false b3 ((repeat LN (total A + length r) ++ s1) ++ LV v :: s2 ++ repeat LN (total B) ++ repeat LN q)).
    { eapply mem_cast; [exact M3|]. lapp. auto. }
    apply mem_split in M4. destruct M4 as (bp & bc & bs & -> & _ & R & _). simpl in R. subst bc.
    rewrite forallb_app. simpl. rewrite andb_false_r. auto.
Qed.

(** What can be read: element [j] of a row is in both buffers at the offset of the row plus [j]. *)
Lemma flat_at {Y} (g : P -> Y) L i (x : row) j e : nth_error L i = Some x -> nth_error (fst x) j = Some e ->
  nth_error (flat g L) (total (firstn i L) + j) = Some (LV (g e)).
Proof.
  intros N J. apply nth_error_split in N. destruct N as (A & B & -> & <-). rewrite firstn_app_exact by auto.
  rewrite flat_app. rewrite nth_error_app2 by (rewrite flat_length; lia). rewrite flat_length.
  replace (total A + j - total A) with j by lia. destruct x as [r k]. simpl in *. unfold cells at 1. simpl.
  assert (j < length r) by (apply nth_error_Some; congruence).
  rewrite nth_error_app1 by len. rewrite nth_error_app1 by len. rewrite map_map. apply (map_nth_error (fun x => LV (g x))). exact J.
Qed.
Lemma around_at {Y} (g : P -> Y) A (r : list P) k B (C : list (lcell Y)) q (A1 A2 : list P) (s : list (lcell Y)) i (x : row) j e : r = A1 ++ A2 -> C = map LV (map g A1) ++ s -> length C = length r + k ->
  nth_error (A ++ (r, k) :: B) i = Some x -> nth_error (fst x) j = Some e -> i <> length A \/ j < length A1 ->
  nth_error (flat g A ++ C ++ flat g B ++ repeat LN q) (total (firstn i (A ++ (r, k) :: B)) + j) = Some (LV (g e)).
Proof.
  intros Er EC L N J Hi. destruct (Nat.lt_trichotomy i (length A)) as [Lt|[->|Gt]].
  - rewrite nth_error_app1 in N by lia. rewrite firstn_app. replace (i - length A) with 0 by lia. rewrite firstn_O, app_nil_r.
    pose proof (flat_at g N J) as F. rewrite nth_error_app1; [exact F|]. apply nth_error_Some. congruence.
  - rewrite nth_error_app2, Nat.sub_diag in N by lia. injection N as <-. cbn [fst] in J. assert (Hj : j < length A1) by (destruct Hi; [lia|auto]).
    rewrite firstn_app_exact by auto. rewrite nth_error_app2 by (rewrite flat_length; lia). rewrite flat_length.
    replace (total A + j - total A) with j by lia. subst C. rewrite <- app_assoc. rewrite nth_error_app1 by len.
    rewrite Er, nth_error_app1 in J by lia. rewrite map_map. apply (map_nth_error (fun x => LV (g x))). exact J.
  - rewrite nth_error_app2 in N by lia. destruct (i - length A) as [|m] eqn:Em; [lia|]. cbn [nth_error] in N.
    rewrite firstn_app, firstn_all2, Em by lia. cbn [firstn]. rewrite total_app. cbn [total]. unfold wid at 1. cbn [fst snd].
    rewrite nth_error_app2 by (rewrite flat_length; lia). rewrite nth_error_app2 by (rewrite flat_length; lia).
    pose proof (flat_at g N J) as F.
    replace (total A + (length r + k + total (firstn m B)) + j - length (flat g A) - length C) with (total (firstn m B) + j)
      by (rewrite flat_length; lia).
    rewrite nth_error_app1; [exact F|]. apply nth_error_Some. congruence.
Qed.
Lemma hurt_reads t nc A r k B (A1 A2 : list P) D C i (x : row) j e : hurt t A r k B (LZs (map fv A1) ++ D) (LWs (map fw A1) ++ C) -> r = A1 ++ A2 ->
  nth_error (A ++ (r, k) :: B) i = Some x -> nth_error (fst x) j = Some e -> i <> length A \/ j < length A1 ->
  column chk (mkSP t nc) i j = Ok (fst e) /\ entry chk (mkSP t nc) i j = Ok (snd e).
Proof.
  intros (I & LD & LC & [q M] & q' & M') Er N J Hi. assert (Lt : j < length (fst x)) by (apply nth_error_Some; congruence).
  assert (Li : i < length (A ++ (r, k) :: B)) by (apply nth_error_Some; congruence). pose proof I as (NA & _). split.
  - unfold column, aoa_at, slot, check_array2. cbn [rows].
    assert (E : (if chk then _ <- error_if (numArrays t <=? i) ;; s <- size_ t i ;; error_if (s <=? j) else Ok tt) = Ok tt).
    { destruct chk; auto. rewrite NA. rewrite error_if_ok by (apply Nat.leb_gt; lia). cbn [bind].
      rewrite (size_at I N). cbn [bind]. apply error_if_ok, Nat.leb_gt. auto. }
    rewrite E. cbn [bind]. rewrite (offset_at I) by lia. cbn [bind]. eapply rd_nth; [exact M|].
    exact (around_at (g := fv) q Er eq_refl LD N J Hi).
  - unfold entry, getEntries. cbn [rows]. rewrite (check_array_at chk I) by exact Li. cbn [bind]. rewrite (offset_at I) by lia. cbn [bind].
    rewrite (size_at I N). cbn [bind]. rewrite check_if_ok by (apply Nat.leb_gt; exact Lt). cbn [bind]. eapply rd_nth; [exact M'|].
    exact (around_at (g := fw) q' Er eq_refl LC N J Hi).
Qed.

(** Any cells can be the contents of a buffer. *)
Lemma mem_of (l : list (lcell W)) : exists b, mem false b l.
Proof.
  induction l as [|c l [b M]]; [exists []; constructor|]. destruct c as [v| |]; [exists (Obj v :: b)|exists (Raw :: b)|exists (Hollow :: b)]; constructor; simpl; auto.
Qed.
Lemma hurt_clean t A r k B D C : hurt t A r k B (LZs (map fv r) ++ D) C ->
  exists b, aok (set_ents b t) (A ++ (r, k) :: B).
Proof.
  intros (I & LD & LC & [q M] & _). destruct (mem_of (flat fw A ++ LWs (map fw r) ++ repeat LN k ++ flat fw B ++ [])) as [b Mb].
  exists b. split; [exact I|]. split; [|intros _].
  - apply row_lay with (q := q). cbn [vals set_ents].
    assert (M1 : mem true (vals t) ((flat fv A ++ LZs (map fv r)) ++ D ++ flat fv B ++ repeat LN q)) by (eapply mem_cast; [exact M|]; lapp; auto).
    apply mem_app_inv in M1. destruct M1 as (b1 & b2 & Eb & M1 & M2). apply mem_app_inv in M2. destruct M2 as (b3 & b4 & -> & M3 & M4).
    rewrite Eb, (app_assoc (flat fv A)). apply mem_app; auto. apply mem_app; auto.
    replace k with (length D) by (rewrite app_length, !map_length in LD; lia). clear -M3. induction M3; simpl; constructor; auto. left. reflexivity.
  - apply row_lay with (q := 0). exact Mb.
Qed.
End Dtor.
