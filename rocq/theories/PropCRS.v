(** Properties of CRSMatrix (C32, C33, C36): the theorems and their non-vacuity examples. *)
From Coq Require Import List Arith ZArith Lia Bool.
From Verif Require Import Base BaseProofs Mem BufferManip SortedSpec SortedArraySpec AoA AoASpec AoS AoSSpec Sparsity SparsitySpec CRS CRSSpec.
From Verif Require MemProofs AoALayout AoAProofs4 SetsProofs SetsProofs2 AoSProofs SortedProofs SparsityProofs CRSProofs2 CRSProofs3 CRSProofs4.
Import ListNotations.
Set Implicit Arguments.

Section CRS.
Variable W : Type.
Variable add : W -> W -> W.
Variable zero : W.
Variables chk tw : bool.
Variable cmax : Z.
Notation matrix := (pattern W).

(** CRSMatrix< T, COL_TYPE > m( nr, nc, cap ), then the calls of [h]. [tw]: T is trivial. *)
Definition cdriven (nr nc cap : nat) (h : list (ccall W)) : outcome matrix :=
  p <- new_sp W chk tw true BMalloc cmax nr nc cap ;; crun chk tw BMalloc cmax add zero h p.
Definition cstep1 := cstep chk tw BMalloc cmax add zero.

(** What can be read: the numbers of rows, columns and non-zeros; the columns of each row and, at the same
    positions, their entries; empty(). *)
Definition cshows (p : matrix) (st : mat_state W) : Prop :=
  let '(M, nc) := st in
  ncols p = nc /\ numArrays (rows p) = length M /\
  forall i S, nth_error M i = Some S ->
    exists l, increasing Z.ltb (map fst l) /\ (forall e, In e l <-> S e) /\ Forall (in_range nc) (map fst l) /\
      numNonZeros chk p i = Ok (length l) /\
      (forall j c w, nth_error l j = Some (c, w) -> column chk p i j = Ok c /\ entry chk p i j = Ok w) /\
      (forall c, exists b, sp_empty chk p i c = Ok b /\ (b = true <-> ~ has S c)).

Notation mrep := (@CRSProofs2.mrep W tw).
Lemma mrep_shows p st : mrep p st -> cshows p st.
Proof.
  destruct st as [M nc]. intros PR. pose proof PR as (R & E & G). cbn [fst snd] in *. split; [exact E|].
  split; [exact (SetsProofs2.rep_num R)|]. intros i S N. pose proof R as (L & H & F).
  destruct (SetsProofs2.f2_at F N) as (A & r & k & B & EL & <- & [I Rs] & _). simpl in *. exists r. rewrite EL in H. pose proof H as [Ia [Lv Le]].
  split; [|split; [exact Rs|split; [|split; [|split]]]].
  - apply (SortedProofs.increasing_strong Z.ltb). apply (SortedProofs2.map_key_incr Z.ltb fst). exact I.
  - apply Forall_forall. intros c Hc. apply in_map_iff in Hc. destruct Hc as ([c' w] & <- & Hw). apply (CRSProofs2.mranged_at G N). exists w. apply Rs. exact Hw.
  - exact (SetsProofs.row_size chk Ia).
  - intros j c w J. assert (Lt : j < length r) by (apply nth_error_Some; rewrite J; discriminate). split.
    + unfold column, aoa_at, slot, check_array2. pose proof (SetsProofs.row_check chk Ia) as Ck. unfold check_array in Ck.
      pose proof (SetsProofs.row_values fst chk Ia) as Ev. unfold getSetValues in Ev. rewrite (SetsProofs.row_check chk Ia) in Ev. cbn [bind] in Ev.
      assert (Ch : (if chk then _ <- error_if (numArrays (rows p) <=? length A) ;; s <- size_ (rows p) (length A) ;; error_if (s <=? j) else Ok tt) = Ok tt).
      { destruct chk; auto. unfold check_if in Ck. cbn [andb] in Ck. unfold error_if at 1. rewrite Ck. cbn [bind]. rewrite (SetsProofs.row_size_ Ia). cbn [bind].
        apply error_if_ok. apply Nat.leb_gt. exact Lt. }
      rewrite Ch. cbn [bind]. rewrite Ev. cbn [bind]. destruct (SetsProofs.lay_row Lv) as [q Mm].
      eapply MemProofs.rd_nth; [exact Mm|]. rewrite nth_error_app2 by lia. rewrite Nat.add_comm, Nat.add_sub.
      rewrite nth_error_app1 by (rewrite !map_length; lia). rewrite !nth_error_map, J. reflexivity.
    + unfold entry. rewrite (CRSProofs2.row_entries chk Ia). cbn [bind]. rewrite (SetsProofs.row_size_ Ia). cbn [bind].
      rewrite check_if_ok by (apply Nat.leb_gt; exact Lt). cbn [bind]. destruct (SetsProofs.lay_row (Le eq_refl)) as [q Mm].
      replace (length (AoALayout.flat (@fst Z W) A)) with (length (AoALayout.flat (@snd Z W) A)) by (rewrite !AoALayout.flat_length; reflexivity).
      eapply MemProofs.rd_nth; [exact Mm|]. rewrite nth_error_app2 by lia. rewrite Nat.add_comm, Nat.add_sub.
      rewrite nth_error_app1 by (rewrite !map_length; lia). rewrite !nth_error_map, J. reflexivity.
  - intros c. unfold sp_empty. destruct (SetsProofs2.rep_contains chk SparsityProofs.zorder c R N) as (b & Eb & Hb). rewrite Eb. cbn [bind].
    exists (negb b). split; auto. rewrite negb_true_iff, <- not_true_iff_false, Hb. rewrite (CRSProofs2.has_iff S c). reflexivity.
Qed.
Lemma cdriven_rep nr nc cap h : (Z.of_nat nc - 1 <= cmax)%Z -> cvalid add zero tw cmax h (repeat none nr, nc) ->
  match mat_run add zero cmax h (repeat none nr, nc) with
  | Some st => (exists p, cdriven nr nc cap h = Ok p /\ mrep p st) \/ (tw = false /\ cdriven nr nc cap h = Fault FMove)
  | None => chk = true -> cdriven nr nc cap h = Abort \/ (tw = false /\ cdriven nr nc cap h = Fault FMove)
  end.
Proof.
  intros C V. unfold cdriven.
  destruct (@CRSProofs4.new_mrep W chk tw cmax nr nc cap) as (p & -> & R); [apply Z.ltb_ge; auto|]. cbn [bind].
  exact (@CRSProofs4.crun_ok W chk tw add zero cmax h p _ R V).
Qed.
End CRS.

(** C32, numbers as entries: every valid history ends normally, every row is the map the history defines,
    columns and entries at the same positions; the destructor releases everything. *)
Theorem C32_entries_with_columns : forall W add zero chk cmax nr nc cap (h : list (ccall W)) st, (Z.of_nat nc - 1 <= cmax)%Z ->
  cvalid add zero true cmax h (repeat none nr, nc) -> mat_run add zero cmax h (repeat none nr, nc) = Some st ->
  exists p, cdriven add zero chk true cmax nr nc cap h = Ok p /\ cshows chk p st /\ crs_dtor chk true BMalloc p = Ok tt.
Proof.
  intros W add zero chk cmax nr nc cap h st C V H. pose proof (@cdriven_rep W add zero chk true cmax nr nc cap h C V) as D. rewrite H in D.
  destruct D as [(p & E & R)|[K _]]; [|discriminate K]. exists p. split; [exact E|]. split; [exact (mrep_shows chk R)|].
  exact (CRSProofs4.mdtor chk R).
Qed.
Print Assumptions C32_entries_with_columns.

(** Entries of any class type: the same, or the history runs into the moves from unconstructed slots of C24. *)
Theorem C32_class_entries : forall W add zero chk tw cmax nr nc cap (h : list (ccall W)) st, (Z.of_nat nc - 1 <= cmax)%Z ->
  cvalid add zero tw cmax h (repeat none nr, nc) -> mat_run add zero cmax h (repeat none nr, nc) = Some st ->
  (exists p, cdriven add zero chk tw cmax nr nc cap h = Ok p /\ cshows chk p st /\ crs_dtor chk tw BMalloc p = Ok tt) \/
  (tw = false /\ cdriven add zero chk tw cmax nr nc cap h = Fault FMove).
Proof.
  intros W add zero chk tw cmax nr nc cap h st C V H. pose proof (@cdriven_rep W add zero chk tw cmax nr nc cap h C V) as D. rewrite H in D.
  destruct D as [(p & E & R)|K]; [left|right; exact K]. exists p. split; [exact E|]. split; [exact (mrep_shows chk R)|].
  exact (CRSProofs4.mdtor chk R).
Qed.
Print Assumptions C32_class_entries.

(** The next call returns by how many columns its row grows or shrinks; a row which does not exist aborts. *)
Theorem C32_returns : forall W add zero chk cmax nr nc cap (h : list (ccall W)) st c p, (Z.of_nat nc - 1 <= cmax)%Z ->
  cvalid add zero true cmax h (repeat none nr, nc) -> mat_run add zero cmax h (repeat none nr, nc) = Some st ->
  cdriven add zero chk true cmax nr nc cap h = Ok p -> callowed true c st ->
  match mat_step add zero cmax c st with
  | Some st' => exists p' r, cstep1 add zero chk true cmax c p = Ok (p', r) /\ creturns c (fst st) (fst st') r /\ cshows chk p' st'
  | None => chk = true -> cstep1 add zero chk true cmax c p = Abort
  end.
Proof.
  intros W add zero chk cmax nr nc cap h st c p C V H E Al. pose proof (@cdriven_rep W add zero chk true cmax nr nc cap h C V) as D. rewrite H in D.
  destruct D as [(p0 & E0 & R)|[K _]]; [|discriminate K]. rewrite E in E0. injection E0 as <-.
  pose proof (@CRSProofs4.cstep_ok W chk true add zero cmax c p st R Al) as St. unfold cstep1. destruct (mat_step add zero cmax c st) as [st'|]; [|exact St].
  destruct St as [([p' r] & E1 & R1 & Rt)|[K _]]; [|discriminate K]. exists p', r. split; [exact E1|]. split; [exact Rt|exact (mrep_shows chk R1)].
Qed.
Print Assumptions C32_returns.

(** insertNonZeros through a view: no growth; within the capacity of the row the same result. *)
Theorem C32_view_inserts : forall W add zero chk cmax nr nc cap (h : list (ccall W)) M nc' p i S ws c, (Z.of_nat nc - 1 <= cmax)%Z ->
  cvalid add zero true cmax h (repeat none nr, nc) -> mat_run add zero cmax h (repeat none nr, nc) = Some (M, nc') ->
  cdriven add zero chk true cmax nr nc cap h = Ok p -> nth_error M i = Some S -> nonZeroCapacity chk p i = Ok c ->
  increasing Z.ltb (map fst ws) -> Forall (in_range nc') (map fst ws) ->
  let S' := fun e => S e \/ (In e ws /\ ~ has S (fst e)) in
  (forall m, cardinal S' m -> m <= c) ->
  exists p' r, crs_v_insertNonZeros chk true p i (map fst ws) (map snd ws) = Ok (p', r) /\ cshows chk p' (put_at M i S', nc') /\
    (forall n n', cardinal S n -> cardinal S' n' -> n' = n + r) /\ nonZeroCapacity chk p' i = Ok c.
Proof.
  intros W add zero chk cmax nr nc cap h M nc' p i S ws c C V H E N Ec I Fr S' Hc. pose proof (@cdriven_rep W add zero chk true cmax nr nc cap h C V) as D.
  rewrite H in D. destruct D as [(p0 & E0 & R)|[K _]]; [|discriminate K]. rewrite E in E0. injection E0 as <-. destruct R as (R & En & G). cbn [fst snd] in *.
  destruct (@CRSProofs2.view_inserts_rep W chk true p M i S ws c R N Ec I Hc) as [([p' r] & E1 & R1 & En' & Pl & Ec')|[K _]]; [|discriminate K].
  cbn [fst snd] in *. exists p', r. split; [exact E1|]. split; [|split; [exact Pl|exact Ec']]. apply mrep_shows with (tw := true). split; [exact R1|].
  split; [cbn; congruence|]. apply CRSProofs2.mranged_put; [exact G|]. apply CRSProofs2.inserted_range; [exact (CRSProofs2.mranged_at G N)|exact Fr].
Qed.
Print Assumptions C32_view_inserts.

Definition hc : list (ccall Z) :=
  [CInserts 1 [(0, 1); (2, 3)]%Z; CAdd 1 [(0, 100); (2, 300)]%Z; CCompress; CAddUnsorted 1 [(2, 1); (0, 1); (2, 2)]%Z;
   CInsert 0 3%Z 30%Z; CInsert 0 1%Z 10%Z; CInsert 0 3%Z 99%Z; CInserts 0 [(0, 7); (1, 8); (2, 9)]%Z; CRemoves 1 [2%Z; 3%Z];
   CReserveRow 1 20; CSetRowCapacity 0 3; CRemove 0 1%Z; CReserveNonZeros 50; CSetRowCapacity 1 4].
Example C32_case :
  (exists M, mat_run Z.add 0%Z 100 hc (repeat none 2, 5) = Some (M, 5) /\ length M = 2) /\
  (p <- cdriven Z.add 0%Z true true 100 2 5 1 hc ;; n0 <- numNonZeros true p 0 ;; n1 <- numNonZeros true p 1 ;;
   c <- column true p 0 1 ;; w <- entry true p 0 1 ;; w1 <- entry true p 1 0 ;; Ok (n0, n1, c, w, w1))
  = Ok (2, 1, 2%Z, 9%Z, 102%Z).
Proof. split; [eexists; split; reflexivity|vm_compute; reflexivity]. Qed.
Ltac has_col :=
  match goal with
  | |- has (added _ _ _) _ => apply (proj2 (CRSProofs3.added_has _ _ _ _)); has_col
  | |- has _ _ => eexists; right; split; [simpl; auto 6|intros [? []]]
  end.
Ltac valid_matrix :=
  match goal with
  | |- cvalid _ _ _ _ _ _ => cbn [cvalid]; valid_matrix
  | |- callowed _ _ _ => cbn [callowed fst snd]; valid_matrix
  | |- match mat_step ?a ?z ?c ?x ?y with _ => _ end => let r := eval cbn in (mat_step a z c x y) in change (mat_step a z c x y) with r; cbv iota; valid_matrix
  | |- _ /\ _ => split; valid_matrix
  | |- True => exact Logic.I
  | |- true = true => reflexivity
  | |- increasing _ _ => apply (SortedProofs.increasing_strong Z.ltb); repeat constructor
  | |- Forall _ _ => repeat constructor; unfold in_range; simpl; lia
  | |- in_range _ _ => unfold in_range; simpl; lia
  | |- forall S c, _ => let S := fresh "S" in intros S ? N I; cbn in N; injection N as <-; cbn in I; repeat (destruct I as [<-|I]; [has_col|]); destruct I
  end.
Example C32_case_valid : cvalid Z.add 0%Z true 100 hc (repeat none 2, 5).
Proof. unfold hc. valid_matrix. Qed.

(** C33: whichever way of searching is used, addToRow adds each value to the entry of its column and changes
    nothing else. *)
Theorem C33_variants_agree : forall W add zero chk cmax nr nc cap (h : list (ccall W)) M nc' p i S adds, (Z.of_nat nc - 1 <= cmax)%Z ->
  cvalid add zero true cmax h (repeat none nr, nc) -> mat_run add zero cmax h (repeat none nr, nc) = Some (M, nc') ->
  cdriven add zero chk true cmax nr nc cap h = Ok p -> nth_error M i = Some S -> (forall c, In c (map fst adds) -> has S c) ->
  let good m := exists p', m = Ok p' /\ cshows chk p' (put_at M i (added add adds S), nc') in
  good (addUnsorted chk true add p i adds) /\
  (increasing Z.ltb (map fst adds) ->
   good (addToRow chk true add p i adds) /\ good (addBinary chk true add p i adds) /\ good (addLinear chk true add p i adds)).
Proof.
  intros W add zero chk cmax nr nc cap h M nc' p i S adds C V H E N Hs good. pose proof (@cdriven_rep W add zero chk true cmax nr nc cap h C V) as D.
  rewrite H in D. destruct D as [(p0 & E0 & R)|[K _]]; [|discriminate K]. rewrite E in E0. injection E0 as <-.
  assert (G : forall m, oks m (fun p' => @CRSProofs2.mrep W true p' (put_at M i (added add adds S), nc')) -> good m).
  { intros m (p' & Em & Rm). exists p'. split; [exact Em|exact (mrep_shows chk Rm)]. }
  split; [|intros I; split; [|split]]; apply G.
  - apply CRSProofs3.addUnsorted_rep; assumption.
  - apply CRSProofs3.addToRow_rep; assumption.
  - apply CRSProofs3.addBinary_rep; assumption.
  - apply CRSProofs3.addLinear_rep; assumption.
Qed.
Print Assumptions C33_variants_agree.

(** Without the column (the assertion is compiled out in release builds, the bounds checks do not look):
    the value lands in the entry of another column, or after the row, in that of the next row. *)
Theorem C33_missing_column : exists p, cvalid Z.add 0%Z true 100 [CInsert 0 1%Z 5%Z; CInsert 1 0%Z 7%Z] (repeat none 2, 3) /\
  cdriven Z.add 0%Z true true 100 2 3 1 [CInsert 0 1%Z 5%Z; CInsert 1 0%Z 7%Z] = Ok p /\
  (exists p', addToRow true true Z.add p 0 [(0%Z, 100%Z)] = Ok p' /\ column true p' 0 0 = Ok 1%Z /\ entry true p' 0 0 = Ok 105%Z) /\
  (exists p', addUnsorted true true Z.add p 0 [(2%Z, 100%Z)] = Ok p' /\ column true p' 1 0 = Ok 0%Z /\ entry true p' 1 0 = Ok 107%Z).
Proof.
  eexists. split; [valid_matrix|]. split; [vm_compute; reflexivity|].
  split; (eexists; split; [vm_compute; reflexivity|split; vm_compute; reflexivity]).
Qed.
Print Assumptions C33_missing_column.
(** Both strategies are reached: a row of 65 columns. *)
Definition row65 : list (Z * Z) := map (fun k => (Z.of_nat k, Z.of_nat (2 * k))) (seq 0 65).
Example C33_case :
  (p <- cdriven Z.add 0%Z true true 100 1 65 0 [CInserts 0 row65] ;;
   p1 <- addToRow true true Z.add p 0 [(7, 1); (60, 2)]%Z ;; p2 <- addLinear true true Z.add p 0 [(7, 1); (60, 2)]%Z ;;
   p3 <- addBinary true true Z.add p 0 [(7, 1); (60, 2)]%Z ;; p4 <- addUnsorted true true Z.add p 0 [(60, 2); (7, 1)]%Z ;;
   a <- entry true p1 0 7 ;; b <- entry true p2 0 60 ;; c <- entry true p3 0 60 ;; d <- entry true p4 0 7 ;; e <- entry true p1 0 8 ;;
   Ok (a, b, c, d, e)) = Ok (15, 122, 122, 15, 16)%Z.
Proof. vm_compute. reflexivity. Qed.

(** C36: assimilate. The pattern comes from any history, the matrix which takes it over from any other. *)
Definition cpattern (W : Type) (chk tw : bool) (cmax : Z) (nr nc cap : nat) (h : list pcall) : outcome (pattern W) :=
  p <- new_sp W chk tw false BMalloc cmax nr nc cap ;; prun chk tw false BMalloc cmax h p.
Theorem C36_assimilate : forall W add zero (d : W) chk tw cmax nr nc cap h M nc' src nr0 nc0 cap0 (h0 : list (ccall W)) st0 this,
  (Z.of_nat nc - 1 <= cmax)%Z -> pvalid cmax h (repeat none nr, nc) -> pat_run cmax h (repeat none nr, nc) = Some (M, nc') ->
  cpattern W chk tw cmax nr nc cap h = Ok src ->
  (Z.of_nat nc0 - 1 <= cmax)%Z -> cvalid add zero tw cmax h0 (repeat none nr0, nc0) -> mat_run add zero cmax h0 (repeat none nr0, nc0) = Some st0 ->
  cdriven add zero chk tw cmax nr0 nc0 cap0 h0 = Ok this ->
  exists p, crs_assimilate chk tw BMalloc d this src = Ok (p, mkSP (null_aoa Z W BMalloc) 0) /\
    cshows chk p (map (fun S e => S (fst e) /\ snd e = d) M, nc') /\
    (forall i, nonZeroCapacity chk p i = nonZeroCapacity chk src i) /\
    crs_dtor chk tw BMalloc p = Ok tt.
Proof.
  intros W add zero d chk tw cmax nr nc cap h M nc' src nr0 nc0 cap0 h0 st0 this C V H E C0 V0 H0 E0.
  pose proof (@cdriven_rep W add zero chk tw cmax nr0 nc0 cap0 h0 C0 V0) as D. rewrite H0 in D.
  destruct D as [(p0 & Ep & R0)|[_ K]]; [|rewrite K in E0; discriminate]. rewrite E0 in Ep. injection Ep as <-.
  destruct (@SparsityProofs.new_prep W d chk tw cmax nr nc cap) as (s0 & Es & Rs); [apply Z.ltb_ge; auto|].
  pose proof (@SparsityProofs.prun_ok W d chk tw cmax h s0 _ Rs V) as Pr. rewrite H in Pr. destruct Pr as (s1 & Es1 & R1).
  unfold cpattern in E. rewrite Es in E. cbn [bind] in E. rewrite Es1 in E. injection E as ->.
  destruct (@CRSProofs4.assimilate_ok W chk tw d d this src st0 M nc' R0 R1) as ([p left] & Ea & Rp & El & Ec). cbn [fst snd] in *. subst left.
  exists p. split; [exact Ea|]. split; [exact (mrep_shows chk Rp)|]. split; [exact Ec|exact (CRSProofs4.mdtor chk Rp)].
Qed.
Print Assumptions C36_assimilate.
Example C36_case :
  (src <- cpattern Z true true 100 2 4 1 [PInserts 0 [1%Z; 3%Z]; PInsert 1 2%Z; PReserveRow 1 3] ;;
   this <- cdriven Z.add 0%Z true true 100 1 2 0 [CInsert 0 1%Z 8%Z] ;;
   '(p, _) <- crs_assimilate true true BMalloc 42%Z this src ;;
   c <- column true p 0 1 ;; w <- entry true p 0 1 ;; k <- nonZeroCapacity true p 1 ;; Ok (c, w, k)) = Ok (3%Z, 42%Z, 3).
Proof. vm_compute. reflexivity. Qed.

(** The other case of C32_class_entries happens: the second row has room but no entries when the first row grows. *)
Theorem C32_class_entries_gap : exists h : list (ccall Z), cvalid Z.add 0%Z false 100 h (repeat none 3, 3) /\
  cdriven Z.add 0%Z true false 100 3 3 1 h = Fault FMove.
Proof. exists [CInsert 0 1%Z 5%Z; CInsert 2 1%Z 5%Z; CInsert 0 0%Z 6%Z]. split; [valid_matrix|vm_compute; reflexivity]. Qed.
Print Assumptions C32_class_entries_gap.
