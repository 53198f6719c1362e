(** C89: adding to the entries of a CRSMatrix in a debug build. *)
From Coq Require Import List Arith ZArith Lia Bool Sorting.Sorted.
From Verif Require Import Base BaseProofs Mem BufferManip SortedSpec SortedArraySpec AoA AoASpec AoS AoSSpec Sparsity SparsitySpec CRS CRSSpec PropCRS
  DebugSorted DebugCRS.
From Verif Require MemProofs AoALayout SetsProofs SetsProofs2 SortedProofs SortedProofs2 SparsityProofs CRSProofs2 CRSProofs3 DebugSortedProofs DebugCRSProofs.
Import ListNotations.
Set Implicit Arguments.

(** Without assertions these are the functions of C33. *)
Theorem C89_off : forall W chk tw kind add (p : pattern W) row adds,
  d_addBinary false chk tw kind add p row adds = addBinary chk tw add p row adds /\
  d_addLinear false chk tw add p row adds = addLinear chk tw add p row adds /\
  d_addUnsorted false chk tw kind add p row adds = addUnsorted chk tw add p row adds /\
  d_addToRow false chk tw kind add p row adds = addToRow chk tw add p row adds.
Proof.
  intros. split; [ apply DebugCRSProofs.off_binary | split; [ apply DebugCRSProofs.off_linear | split; [ apply DebugCRSProofs.off_unsorted | apply DebugCRSProofs.off_row ] ] ].
Qed.
Print Assumptions C89_off.

Section Row.
Variable W : Type.
Variables chk tw : bool.
Variable add : W -> W -> W.
Notation incr l := (StronglySorted (fun x y => (x <? y)%Z = true) l).
(** what the functions see of row [i] *)
Lemma row_seen (p : pattern W) M nc i S : @CRSProofs2.mrep W tw p (M, nc) -> nth_error M i = Some S ->
  exists o cols, numNonZeros chk p i = Ok (length cols) /\ getSetValues chk (rows p) i = Ok o /\ getEntries chk (rows p) i = Ok o /\
    DebugSortedProofs.view (vals (rows p)) o cols /\ incr cols /\ DebugCRSProofs.live (ents (rows p)) o (length cols) /\
    forall c, In c cols <-> has S c.
Proof.
  intros ((L & H & F) & E & G) N. cbn [fst snd] in *. destruct (SetsProofs2.f2_at F N) as (A & r & k & B & -> & <- & [I Rs] & _).
  pose proof H as [Ia [Lv Le]]. cbn [fst] in *. exists (length (AoALayout.flat (@fst Z W) A)), (map fst r). rewrite map_length.
  split; [ exact (SetsProofs.row_size chk Ia) | ]. split; [ exact (SetsProofs.row_values fst chk Ia) | ].
  split; [ exact (CRSProofs2.row_entries chk Ia) | ].
  split; [ | split; [ | split ] ].
  - destruct (SetsProofs.lay_row Lv) as [q Mm]. intros j x J. eapply MemProofs.rd_nth; [ exact Mm | ].
    rewrite nth_error_app2 by lia. rewrite Nat.add_comm, Nat.add_sub.
    rewrite nth_error_app1 by (rewrite map_length; apply nth_error_Some; rewrite J; discriminate). rewrite nth_error_map, J. reflexivity.
  - apply (SortedProofs2.map_key_incr Z.ltb fst). exact I.
  - destruct (SetsProofs.lay_row (Le eq_refl)) as [q Mm]. intros j J.
    destruct (nth_error r j) as [[c w]|] eqn:X; [ | apply nth_error_None in X; lia ]. exists w.
    replace (length (AoALayout.flat (@fst Z W) A)) with (length (AoALayout.flat (@snd Z W) A)) by (rewrite !AoALayout.flat_length; reflexivity).
    eapply MemProofs.rd_nth; [ exact Mm | ]. rewrite nth_error_app2 by lia. rewrite Nat.add_comm, Nat.add_sub.
    rewrite nth_error_app1 by (rewrite !map_length; lia). rewrite !nth_error_map, X. reflexivity.
  - intros c. rewrite in_map_iff. split; [ intros ([c' w] & <- & Hw); exists w; apply Rs; exact Hw | intros [w Hw]; exists (c, w); split; [ reflexivity | apply Rs; exact Hw ] ].
Qed.
Lemma unique_dec (l : list Z) : Sorted.isSortedUnique Z.ltb l = true <-> increasing Z.ltb l.
Proof. apply (SortedProofs.isSortedUnique_iff (to_swo SparsityProofs.zorder)). Qed.
Lemma all_in (S : row_map W) cols (l : list Z) : (forall c, In c cols <-> has S c) ->
  forallb (DebugCRSProofs.inrow cols) l = true <-> (forall c, In c l -> has S c).
Proof.
  intros Q. rewrite forallb_forall. split; intros H c Hc; specialize (H c Hc); [ apply Q, DebugCRSProofs.inrow_iff; exact H | apply DebugCRSProofs.inrow_iff, Q; exact H ].
Qed.

Variables (p : pattern W) (M : list (row_map W)) (nc i : nat) (S : row_map W).
Hypothesis R : @CRSProofs2.mrep W tw p (M, nc).
Hypothesis N : nth_error M i = Some S.
Lemma binary_ok adds : increasing Z.ltb (map fst adds) -> (forall c, In c (map fst adds) -> has S c) ->
  d_addBinary true chk tw BMalloc add p i adds = addBinary chk tw add p i adds.
Proof.
  intros I H. destruct (@row_seen p M nc i S R N) as (o & cols & E1 & E2 & E3 & Vw & Ic & Lv & Q).
  rewrite <- (DebugCRSProofs.off_binary chk tw BMalloc add). unfold d_addBinary. rewrite E1, E2, E3. cbn [bind].
  rewrite !DebugCRSProofs.assert_true by (apply unique_dec; exact I). cbn [bind].
  rewrite (@DebugCRSProofs.bin_runs W tw BMalloc add _ o o cols Vw Ic adds _ 0 Lv (Nat.le_0_l _)).
  - rewrite (proj2 (@all_in S cols _ Q) H). reflexivity.
  - apply SortedProofs.increasing_strong. exact I.
  - intros c _. apply DebugCRSProofs.before_0.
Qed.
Lemma binary_bad adds : ~ (increasing Z.ltb (map fst adds) /\ forall c, In c (map fst adds) -> has S c) ->
  d_addBinary true chk tw BMalloc add p i adds = Abort.
Proof.
  intros H. destruct (@row_seen p M nc i S R N) as (o & cols & E1 & E2 & E3 & Vw & Ic & Lv & Q).
  unfold d_addBinary. destruct (Sorted.isSortedUnique Z.ltb (map fst adds)) eqn:U; [ | reflexivity ].
  rewrite DebugCRSProofs.assert_true by reflexivity. cbn [bind]. rewrite E1, E2, E3. cbn [bind]. apply unique_dec in U.
  rewrite (@DebugCRSProofs.bin_runs W tw BMalloc add _ o o cols Vw Ic adds _ 0 Lv (Nat.le_0_l _)).
  - destruct (forallb _ _) eqn:F; [ | reflexivity ]. exfalso. apply H. split; [ exact U | ]. exact (proj1 (@all_in S cols _ Q) F).
  - apply SortedProofs.increasing_strong. exact U.
  - intros c _. apply DebugCRSProofs.before_0.
Qed.
Lemma unsorted_ok adds : (forall c, In c (map fst adds) -> has S c) ->
  d_addUnsorted true chk tw BMalloc add p i adds = addUnsorted chk tw add p i adds.
Proof.
  intros H. destruct (@row_seen p M nc i S R N) as (o & cols & E1 & E2 & E3 & Vw & Ic & Lv & Q).
  rewrite <- (DebugCRSProofs.off_unsorted chk tw BMalloc add). unfold d_addUnsorted. rewrite E1, E2, E3. cbn [bind].
  rewrite (@DebugCRSProofs.uns_runs W tw BMalloc add _ o o cols Vw Ic adds _ Lv).
  rewrite (proj2 (@all_in S cols _ Q) H). reflexivity.
Qed.
Lemma unsorted_bad adds : ~ (forall c, In c (map fst adds) -> has S c) ->
  d_addUnsorted true chk tw BMalloc add p i adds = Abort.
Proof.
  intros H. destruct (@row_seen p M nc i S R N) as (o & cols & E1 & E2 & E3 & Vw & Ic & Lv & Q).
  unfold d_addUnsorted. rewrite E1, E2, E3. cbn [bind].
  rewrite (@DebugCRSProofs.uns_runs W tw BMalloc add _ o o cols Vw Ic adds _ Lv).
  destruct (forallb _ _) eqn:F; [ | reflexivity ]. exfalso. apply H. exact (proj1 (@all_in S cols _ Q) F).
Qed.
Lemma linear_ok adds : increasing Z.ltb (map fst adds) -> (forall c, In c (map fst adds) -> has S c) ->
  d_addLinear true chk tw add p i adds = addLinear chk tw add p i adds.
Proof.
  intros I H. destruct (@row_seen p M nc i S R N) as (o & cols & E1 & E2 & E3 & Vw & Ic & Lv & Q).
  rewrite <- (DebugCRSProofs.off_linear chk tw add). unfold d_addLinear. rewrite E1, E2, E3. cbn [bind].
  rewrite !DebugCRSProofs.assert_true by (apply unique_dec; exact I). cbn [bind].
  rewrite (@DebugCRSProofs.lin_runs W tw BMalloc add _ o o cols Vw Ic adds _ 0 Lv (Nat.le_0_l _)); [ reflexivity | | ].
  - apply SortedProofs.increasing_strong. exact I.
  - intros c Hc. split; [ apply DebugCRSProofs.before_0 | apply Q, H; exact Hc ].
Qed.
Lemma linear_unsorted adds : ~ increasing Z.ltb (map fst adds) -> d_addLinear true chk tw add p i adds = Abort.
Proof.
  intros H. unfold d_addLinear. destruct (Sorted.isSortedUnique Z.ltb (map fst adds)) eqn:U; [ | reflexivity ]. apply unique_dec in U. contradiction.
Qed.
Lemma linear_bad pre c v post m : increasing Z.ltb (map fst (pre ++ (c, v) :: post)) -> (forall c', In c' (map fst pre) -> has S c') -> ~ has S c ->
  has S m -> (forall c', In c' (map fst pre) -> (c' < m)%Z) -> d_addLinear true chk tw add p i (pre ++ (c, v) :: post) = Abort.
Proof.
  intros I P H Hm Lm. destruct (@row_seen p M nc i S R N) as (o & cols & E1 & E2 & E3 & Vw & Ic & Lv & Q).
  unfold d_addLinear. rewrite DebugCRSProofs.assert_true by (apply unique_dec; exact I). cbn [bind]. rewrite E1, E2, E3. cbn [bind].
  rewrite (@DebugCRSProofs.lin_missing W tw BMalloc add _ o o cols Vw Ic m c v post pre _ 0 Lv (Nat.le_0_l _)); [ reflexivity | | | | | | | ].
  - apply SortedProofs.increasing_strong. exact I.
  - intros c' _. apply DebugCRSProofs.before_0.
  - intros c' Hc'. apply Q, P. exact Hc'.
  - rewrite Q. exact H.
  - apply Q. exact Hm.
  - exact Lm.
  - lia.
Qed.
End Row.

(** The matrix after any valid history, any row of it. With all columns in the row, and sorted where that is asked for, no assertion
    fails and the values arrive. *)
Theorem C89_allowed : forall W add zero chk tw cmax nr nc cap (h : list (ccall W)) M nc' p i S adds, (Z.of_nat nc - 1 <= cmax)%Z ->
  cvalid add zero tw cmax h (repeat none nr, nc) -> mat_run add zero cmax h (repeat none nr, nc) = Some (M, nc') ->
  cdriven add zero chk tw cmax nr nc cap h = Ok p -> nth_error M i = Some S -> (forall c, In c (map fst adds) -> has S c) ->
  let good m m' := m = m' /\ exists p', m = Ok p' /\ cshows chk p' (put_at M i (added add adds S), nc') in
  good (d_addUnsorted true chk tw BMalloc add p i adds) (addUnsorted chk tw add p i adds) /\
  (increasing Z.ltb (map fst adds) ->
   good (d_addToRow true chk tw BMalloc add p i adds) (addToRow chk tw add p i adds) /\
   good (d_addBinary true chk tw BMalloc add p i adds) (addBinary chk tw add p i adds) /\
   good (d_addLinear true chk tw add p i adds) (addLinear chk tw add p i adds)).
Proof.
  intros W add zero chk tw cmax nr nc cap h M nc' p i S adds C V H E N Hs good. pose proof (@cdriven_rep W add zero chk tw cmax nr nc cap h C V) as D.
  rewrite H in D. destruct D as [(p0 & E0 & R)|[_ K]]; [ | rewrite E in K; discriminate ]. rewrite E in E0. injection E0 as <-.
  assert (G : forall m m', m = m' -> oks m' (fun p' => @CRSProofs2.mrep W tw p' (put_at M i (added add adds S), nc')) -> good m m').
  { intros m m' -> (p' & Em & Rm). split; [ reflexivity | ]. exists p'. split; [exact Em|exact (mrep_shows chk Rm)]. }
  split; [ | intros I; split; [ | split ] ]; apply G.
  - eapply unsorted_ok; eauto.
  - apply CRSProofs3.addUnsorted_rep; assumption.
  - unfold d_addToRow, addToRow. destruct (numNonZeros chk p i); cbn [bind]; try reflexivity.
    destruct (_ && _)%bool; [ eapply binary_ok; eauto | eapply linear_ok; eauto ].
  - apply CRSProofs3.addToRow_rep; assumption.
  - eapply binary_ok; eauto.
  - apply CRSProofs3.addBinary_rep; assumption.
  - eapply linear_ok; eauto.
  - apply CRSProofs3.addLinear_rep; assumption.
Qed.
Print Assumptions C89_allowed.

(** Both binary searches find every column that is not in the row, the sorted one also every range that is not sorted and unique. *)
Theorem C89_binary_found : forall W add zero chk tw cmax nr nc cap (h : list (ccall W)) M nc' p i S adds, (Z.of_nat nc - 1 <= cmax)%Z ->
  cvalid add zero tw cmax h (repeat none nr, nc) -> mat_run add zero cmax h (repeat none nr, nc) = Some (M, nc') ->
  cdriven add zero chk tw cmax nr nc cap h = Ok p -> nth_error M i = Some S ->
  (~ (forall c, In c (map fst adds) -> has S c) -> d_addUnsorted true chk tw BMalloc add p i adds = Abort) /\
  (~ (increasing Z.ltb (map fst adds) /\ forall c, In c (map fst adds) -> has S c) ->
   d_addBinary true chk tw BMalloc add p i adds = Abort /\
   (forall nnz, numNonZeros chk p i = Ok nnz -> 64 < nnz -> length adds < nnz / 4 -> d_addToRow true chk tw BMalloc add p i adds = Abort)).
Proof.
  intros W add zero chk tw cmax nr nc cap h M nc' p i S adds C V H E N. pose proof (@cdriven_rep W add zero chk tw cmax nr nc cap h C V) as D.
  rewrite H in D. destruct D as [(p0 & E0 & R)|[_ K]]; [ | rewrite E in K; discriminate ]. rewrite E in E0. injection E0 as <-.
  split; [ intros B; eapply unsorted_bad; eauto | ]. intros B.
  assert (Q : d_addBinary true chk tw BMalloc add p i adds = Abort) by (eapply binary_bad; eauto). split; [ exact Q | ].
  intros nnz En L1 L2. unfold d_addToRow. rewrite En. cbn [bind]. apply Nat.ltb_lt in L1, L2. rewrite L1, L2. exact Q.
Qed.
Print Assumptions C89_binary_found.

(** The linear search finds every range that is not sorted and unique, and a column that is not in the row unless the last column of the
    row has been added to before. *)
Theorem C89_linear_found : forall W add zero chk tw cmax nr nc cap (h : list (ccall W)) M nc' p i S, (Z.of_nat nc - 1 <= cmax)%Z ->
  cvalid add zero tw cmax h (repeat none nr, nc) -> mat_run add zero cmax h (repeat none nr, nc) = Some (M, nc') ->
  cdriven add zero chk tw cmax nr nc cap h = Ok p -> nth_error M i = Some S ->
  (forall adds, ~ increasing Z.ltb (map fst adds) -> d_addLinear true chk tw add p i adds = Abort /\ d_addToRow true chk tw BMalloc add p i adds = Abort) /\
  (forall pre c v post last, (forall c', In c' (map fst pre) -> has S c') -> ~ has S c ->
     has S last -> (forall c', In c' (map fst pre) -> (c' < last)%Z) ->
     d_addLinear true chk tw add p i (pre ++ (c, v) :: post) = Abort /\ d_addToRow true chk tw BMalloc add p i (pre ++ (c, v) :: post) = Abort).
Proof.
  intros W add zero chk tw cmax nr nc cap h M nc' p i S C V H E N. pose proof (@cdriven_rep W add zero chk tw cmax nr nc cap h C V) as D.
  rewrite H in D. destruct D as [(p0 & E0 & R)|[_ K]]; [ | rewrite E in K; discriminate ]. rewrite E in E0. injection E0 as <-.
  assert (Row : forall adds, ~ (increasing Z.ltb (map fst adds) /\ forall c, In c (map fst adds) -> has S c) ->
                d_addLinear true chk tw add p i adds = Abort -> d_addToRow true chk tw BMalloc add p i adds = Abort).
  { intros adds B L. unfold d_addToRow. destruct (@row_seen W chk tw p M nc' i S R N) as (o & cols & E1 & _). rewrite E1. cbn [bind].
    destruct (_ && _)%bool; [ eapply binary_bad; eauto | exact L ]. }
  assert (U : forall adds, ~ increasing Z.ltb (map fst adds) -> d_addLinear true chk tw add p i adds = Abort) by (intros adds B; apply linear_unsorted; exact B).
  split; [ intros adds B; split; [ apply U; exact B | apply Row; [ intros [B' _]; contradiction | apply U; exact B ] ] | ].
  intros pre c v post last P Hc Hl Ll.
  assert (L : d_addLinear true chk tw add p i (pre ++ (c, v) :: post) = Abort).
  { destruct (Sorted.isSortedUnique Z.ltb (map fst (pre ++ (c, v) :: post))) eqn:Q.
    - apply unique_dec in Q. eapply linear_bad; eauto.
    - apply U. intros Q'. apply unique_dec in Q'. congruence. }
  split; [ exact L | ]. apply Row; [ | exact L ]. intros [_ B]. apply Hc, B. rewrite map_app. apply in_or_app. right. left. reflexivity.
Qed.
Print Assumptions C89_linear_found.

(** That exception is real. Rows { 1 } and { 3 } without spare room: adding to columns 1 and 3 of row 0 compares the column after the row,
    which is that of row 1, passes all assertions and bounds checks, and changes row 1. With spare room the assertion reads memory
    that holds no column. *)
Theorem C89_linear_refuted :
  (exists p p', cvalid Z.add 0%Z true 100 [CInsert 0 1%Z 5%Z; CInsert 1 3%Z 7%Z] (repeat none 2, 4) /\
     cdriven Z.add 0%Z true true 100 2 4 1 [CInsert 0 1%Z 5%Z; CInsert 1 3%Z 7%Z] = Ok p /\
     d_addToRow true true true BMalloc Z.add p 0 [(1%Z, 10%Z); (3%Z, 100%Z)] = Ok p' /\
     column true p' 1 0 = Ok 3%Z /\ entry true p 1 0 = Ok 7%Z /\ entry true p' 1 0 = Ok 107%Z) /\
  (exists p, cdriven Z.add 0%Z true true 100 1 4 2 [CInsert 0 1%Z 5%Z] = Ok p /\
     d_addToRow true true true BMalloc Z.add p 0 [(1%Z, 10%Z); (3%Z, 100%Z)] = Fault FRead) /\
  (exists p, cdriven Z.add 0%Z true true 100 1 4 1 [CInsert 0 1%Z 5%Z] = Ok p /\
     d_addToRow true true true BMalloc Z.add p 0 [(1%Z, 10%Z); (3%Z, 100%Z)] = Fault FOob).
Proof.
  split; [ | split ].
  - eexists. eexists. split; [valid_matrix|]. split; [vm_compute; reflexivity|]. split; [vm_compute; reflexivity|].
    split; [vm_compute; reflexivity|]. split; vm_compute; reflexivity.
  - eexists. split; vm_compute; reflexivity.
  - eexists. split; vm_compute; reflexivity.
Qed.
Print Assumptions C89_linear_refuted.
Example C89_case :
  (p <- cdriven Z.add 0%Z true true 100 1 65 0 [CInserts 0 row65] ;;
   p1 <- d_addToRow true true true BMalloc Z.add p 0 [(7, 1); (60, 2)]%Z ;; a <- entry true p1 0 7 ;; b <- entry true p1 0 60 ;; Ok (a, b)) = Ok (15, 122)%Z /\
  (p <- cdriven Z.add 0%Z true true 100 1 80 0 [CInserts 0 row65] ;; d_addToRow true true true BMalloc Z.add p 0 [(7, 1); (70, 2)]%Z) = Abort /\
  (p <- cdriven Z.add 0%Z true true 100 1 9 0 [CInserts 0 [(2, 1); (4, 1); (6, 1)]%Z] ;; d_addToRow true true true BMalloc Z.add p 0 [(2, 1); (8, 2)]%Z) = Abort.
Proof. split; [ vm_compute; reflexivity | split; vm_compute; reflexivity ]. Qed.
