(** Which missing columns the assertions of the addToRow functions find. *)
From Coq Require Import List Arith ZArith Lia Bool Sorting.Sorted.
From Verif Require Import Base Mem BufferManip Debug Sorted SortedSpec SortedProofs AoA AoS Sparsity CRS DebugSorted DebugSortedProofs DebugCRS AoALayout.
From Verif Require SparsityProofs MemProofs.
Import ListNotations.
Set Implicit Arguments.

Lemma fold_stuck S A (f : S -> A -> outcome S) l m : (forall s, m <> Ok s) ->
  fold_left (fun st x => s <- st ;; f s x) l m = m.
Proof. intros H. induction l; simpl; [ reflexivity | ]. destruct m; [ destruct (H a0 eq_refl) | exact IHl | exact IHl ]. Qed.
Lemma fold_runs S A (f : S -> A -> outcome S) l : forall s, fold_left (fun st x => s <- st ;; f s x) l (Ok s) = runs f l s.
Proof.
  induction l as [|x l IH]; intros s; simpl; [ reflexivity | ]. destruct (f s x) as [s'| |e]; cbn [bind]; [ apply IH | | ]; apply fold_stuck; discriminate.
Qed.

Section Off.
Variable W : Type.
Variables chk tw : bool.
Variable kind : bkind.
Variable add : W -> W -> W.
Lemma off_binary (p : pattern W) row adds : d_addBinary false chk tw kind add p row adds = addBinary chk tw add p row adds.
Proof.
  unfold d_addBinary, addBinary. change (assert_ false (isSortedUnique Z.ltb (map fst adds))) with (@Ok unit tt). cbn [bind].
  destruct (numNonZeros chk p row) as [nnz| |]; cbn [bind]; try reflexivity.
  destruct (getSetValues chk (rows p) row) as [c| |]; cbn [bind]; try reflexivity.
  destruct (getEntries chk (rows p) row) as [e| |]; cbn [bind]; try reflexivity.
  rewrite <- fold_runs. reflexivity.
Qed.
Lemma off_linear (p : pattern W) row adds : d_addLinear false chk tw add p row adds = addLinear chk tw add p row adds.
Proof.
  unfold d_addLinear, addLinear. change (assert_ false (isSortedUnique Z.ltb (map fst adds))) with (@Ok unit tt). cbn [bind].
  destruct (numNonZeros chk p row) as [nnz| |]; cbn [bind]; try reflexivity.
  destruct (getSetValues chk (rows p) row) as [c| |]; cbn [bind]; try reflexivity.
  destruct (getEntries chk (rows p) row) as [e| |]; cbn [bind]; try reflexivity.
  rewrite <- fold_runs. reflexivity.
Qed.
Lemma off_unsorted (p : pattern W) row adds : d_addUnsorted false chk tw kind add p row adds = addUnsorted chk tw add p row adds.
Proof.
  unfold d_addUnsorted, addUnsorted.
  destruct (numNonZeros chk p row) as [nnz| |]; cbn [bind]; try reflexivity.
  destruct (getSetValues chk (rows p) row) as [c| |]; cbn [bind]; try reflexivity.
  destruct (getEntries chk (rows p) row) as [e| |]; cbn [bind]; try reflexivity.
  rewrite <- fold_runs. reflexivity.
Qed.
Lemma off_row (p : pattern W) row adds : d_addToRow false chk tw kind add p row adds = addToRow chk tw add p row adds.
Proof.
  unfold d_addToRow, addToRow. destruct (numNonZeros chk p row); cbn [bind]; try reflexivity. rewrite off_binary, off_linear. reflexivity.
Qed.
End Off.

Section On.
Variable W : Type.
Variable tw : bool.
Variable kind : bkind.
Variable add : W -> W -> W.
Notation T := SparsityProofs.zorder.
Notation incr l := (StronglySorted (fun x y => (x <? y)%Z = true) l).
Implicit Types vs : buf Z.

(** the slots of the row hold entries *)
Definition live (b : buf W) (e n : nat) : Prop := forall i, i < n -> exists w, rd b (e + i) = Ok w.
Lemma rd_obj V (b : buf V) i v : rd b i = Ok v <-> nth_error b i = Some (Obj v).
Proof.
  unfold rd, aget. destruct (nth_error b i) as [[ |w| ]|]; cbn [bind]; split; intros H; try discriminate; injection H as ->; reflexivity.
Qed.
Lemma nth_upd A (l : list A) i j x : nth_error (upd l i x) j = if i =? j then (if i <? length l then Some x else None) else nth_error l j.
Proof.
  revert i j. induction l as [|y l IH]; intros [|i] [|j]; simpl; auto; try (destruct (_ =? _); reflexivity).
  rewrite IH. destruct (i =? j); [ | reflexivity ]. reflexivity.
Qed.
Lemma add_live b e n i v : live b e n -> i < n -> exists b', add_at tw add b (e + i) v = Ok b' /\ live b' e n.
Proof.
  intros H I. destruct (H i I) as [w E]. unfold add_at. rewrite E. cbn [bind].
  apply rd_obj in E. unfold assign, store, aget. rewrite E. cbn [bind]. unfold aset.
  assert (L : e + i < length b) by (apply nth_error_Some; rewrite E; discriminate).
  apply Nat.ltb_lt in L. rewrite L. eexists. split; [ reflexivity | ]. intros j J. destruct (H j J) as [u U]. apply rd_obj in U.
  destruct (Nat.eq_dec (e + i) (e + j)) as [Q|Q].
  - exists (add w v). apply rd_obj. rewrite nth_upd. rewrite Q, Nat.eqb_refl. rewrite <- Q, L. reflexivity.
  - exists u. apply rd_obj. rewrite nth_upd. apply Nat.eqb_neq in Q. rewrite Q. exact U.
Qed.

Variables (vs : buf Z) (o e : nat) (cols : list Z).
Hypothesis Hv : view vs o cols.
Hypothesis I : incr cols.
Notation nnz := (length cols).
Definition inrow (c : Z) : bool := existsb (Z.eqb c) cols.
Lemma inrow_iff c : inrow c = true <-> In c cols.
Proof.
  unfold inrow. rewrite existsb_exists. split; [ intros (x & H & E); apply Z.eqb_eq in E; subst; exact H | intros H; exists c; split; [ exact H | apply Z.eqb_refl ] ].
Qed.
Notation nless c := (number_less Z.ltb cols c).
Lemma nless_at c : In c cols -> nth_error cols (nless c) = Some c.
Proof. apply (proj2 (in_number T c I)). Qed.
Lemma read_at pos x : nth_error cols pos = Some x -> rd vs (o + pos) = Ok x.
Proof. intros E. exact (Hv pos E). Qed.

(** everything before [cur] is smaller than [c] *)
Definition before (cur : nat) (c : Z) : Prop := forall i x, i < cur -> nth_error cols i = Some x -> (x <? c)%Z = true.
Lemma nless_from cur c : cur <= nnz -> before cur c -> number_less Z.ltb (skipn cur cols) c + cur = nless c.
Proof.
  intros L B. rewrite <- (firstn_skipn cur cols) at 2. unfold number_less at 2. rewrite filter_app, app_length. fold (number_less Z.ltb (skipn cur cols) c).
  replace (filter (fun x => (x <? c)%Z) (firstn cur cols)) with (firstn cur cols).
  - rewrite firstn_length. lia.
  - assert (F : Forall (fun x => (x <? c)%Z = true) (firstn cur cols)).
    { apply Forall_forall. intros x Hx. apply In_nth_error in Hx. destruct Hx as [k K].
      assert (k < cur). { assert (k < length (firstn cur cols)) by (apply nth_error_Some; rewrite K; discriminate). rewrite firstn_length in *. lia. }
      apply nth_error_first in K. exact (B k x H K). }
    induction F as [|x r Fx F IH]; [ reflexivity | ]. simpl. rewrite Fx. f_equal. exact IH.
Qed.
Lemma search dbg cur c : cur <= nnz -> before cur c ->
  d_find dbg kind Z.ltb vs (o + cur) (nnz - cur) c = Ok (nless c - cur) /\ cur <= nless c.
Proof.
  intros L B. assert (H : view vs (o + cur) (skipn cur cols)).
  { apply view_skipn with (k := 0); [ lia | rewrite Nat.add_0_r; exact Hv ]. }
  assert (Is : incr (skipn cur cols)) by (apply incr_skipn; exact I).
  rewrite <- (skip_len cols cur). rewrite (d_find_eq dbg kind T c H Is). rewrite (find_view T c H Is).
  pose proof (nless_from L B). split; [ f_equal; lia | lia ].
Qed.
Lemma nless_le c : nless c <= nnz.
Proof. apply number_le. Qed.
Lemma before_next c c' : (c < c')%Z -> In c cols -> before (nless c + 1) c'.
Proof.
  intros L Hc i x J X. apply Z.ltb_lt. destruct (Nat.eq_dec i (nless c)) as [->|N].
  - rewrite (nless_at _ Hc) in X. injection X as <-. exact L.
  - pose proof (proj2 (increasing_strong Z.ltb cols) I) as I2. pose proof (I2 i (nless c) x c ltac:(lia) X (nless_at _ Hc)) as K. apply Z.ltb_lt in K. lia.
Qed.
Lemma col_at c : In c cols -> nless c < nnz.
Proof. intros H. apply nth_error_Some. rewrite (nless_at _ H). discriminate. Qed.

Lemma missing_column pos c : pos < nnz -> ~ In c cols -> assert_column true vs (o + pos) c = Abort.
Proof.
  intros L N. destruct (nth_error cols pos) as [x|] eqn:E; [ | apply nth_error_None in E; lia ].
  unfold assert_column. rewrite (@read_at _ _ E). cbn [bind]. unfold assert_, check_if.
  destruct (Z.eqb_spec x c) as [->|_]; [ | reflexivity ]. destruct N. eapply nth_error_In; eauto.
Qed.
Lemma there_column dbg c : In c cols -> assert_column dbg vs (o + nless c) c = Ok tt.
Proof.
  intros H. unfold assert_column. destruct dbg; [ | reflexivity ]. rewrite (@read_at _ _ (nless_at _ H)). cbn [bind].
  unfold assert_, check_if. rewrite Z.eqb_refl. reflexivity.
Qed.
Lemma assert_true dbg c : c = true -> assert_ dbg c = Ok tt.
Proof. intros ->. unfold assert_, check_if. destruct dbg; reflexivity. Qed.

Lemma bin_here dbg b cur (cv : Z * W) : cur <= nnz -> before cur (fst cv) -> In (fst cv) cols ->
  bin_step dbg tw kind add vs o e nnz (b, cur) cv = (b' <- add_at tw add b (e + nless (fst cv)) (snd cv) ;; Ok (b', nless (fst cv) + 1)).
Proof.
  intros L B Hc. unfold bin_step. rewrite BaseProofs.sub_ix_ok by lia. cbn [bind]. destruct (@search dbg cur _ L B) as [E G]. rewrite E. cbn [bind].
  replace (nless (fst cv) - cur + cur) with (nless (fst cv)) by lia.
  rewrite assert_true by (apply Nat.ltb_lt, col_at; exact Hc). cbn [bind]. rewrite (there_column dbg _ Hc). reflexivity.
Qed.
Lemma bin_runs adds : forall b cur, live b e nnz -> cur <= nnz -> incr (map fst adds) ->
  (forall c, In c (map fst adds) -> before cur c) ->
  runs (bin_step true tw kind add vs o e nnz) adds (b, cur) =
  if forallb inrow (map fst adds) then runs (bin_step false tw kind add vs o e nnz) adds (b, cur) else Abort.
Proof.
  induction adds as [|[c v] adds IH]; intros b cur Lb L Ia B; [ reflexivity | ]. cbn [runs map forallb fst] in *.
  specialize (B c (or_introl eq_refl)) as Bc. destruct (inrow c) eqn:R.
  - apply inrow_iff in R. rewrite !(@bin_here _ b cur (c, v)) by auto. cbn [fst snd].
    destruct (@add_live b e nnz (nless c) v Lb (col_at _ R)) as (b' & E & Lb'). rewrite E. cbn [bind andb].
    inversion Ia as [|? ? Ia' F]; subst. pose proof (col_at _ R). apply IH; auto; [ lia | ].
    intros c' Hc'. rewrite Forall_forall in F. specialize (F c' Hc'). apply Z.ltb_lt in F. apply before_next; assumption.
  - cbn [andb]. assert (N : ~ In c cols) by (intros H; apply inrow_iff in H; congruence).
    unfold bin_step at 1. rewrite BaseProofs.sub_ix_ok by lia. cbn [bind fst snd]. destruct (@search true cur _ L Bc) as [E G]. rewrite E. cbn [bind].
    replace (nless c - cur + cur) with (nless c) by lia. destruct (Nat.ltb_spec (nless c) nnz) as [Q|Q]; [ | reflexivity ].
    change (assert_ true true) with (@Ok unit tt). cbn [bind]. rewrite (missing_column _ Q N). reflexivity.
Qed.
Lemma before_0 c : before 0 c.
Proof. intros i x L. lia. Qed.
Lemma uns_runs adds : forall b, live b e nnz ->
  runs (uns_step true tw kind add vs o e nnz) adds b =
  if forallb inrow (map fst adds) then runs (uns_step false tw kind add vs o e nnz) adds b else Abort.
Proof.
  induction adds as [|[c v] adds IH]; intros b Lb; [ reflexivity | ]. cbn [runs map forallb fst] in *.
  assert (Fd : forall dbg, d_find dbg kind Z.ltb vs o nnz c = Ok (nless c)).
  { intros dbg. destruct (@search dbg 0 c ltac:(lia) (@before_0 c)) as [E _]. rewrite Nat.add_0_r, !Nat.sub_0_r in E. exact E. }
  unfold uns_step at 1 3. cbn [fst snd]. rewrite !Fd. cbn [bind].
  destruct (inrow c) eqn:R.
  - apply inrow_iff in R. rewrite !assert_true by (apply Nat.ltb_lt, col_at; exact R). cbn [bind]. rewrite !(there_column _ _ R). cbn [bind andb].
    destruct (@add_live b e nnz (nless c) v Lb (col_at _ R)) as (b' & E & Lb'). rewrite E. cbn [bind]. apply IH. exact Lb'.
  - cbn [andb]. assert (N : ~ In c cols) by (intros H; apply inrow_iff in H; congruence).
    destruct (Nat.ltb_spec (nless c) nnz) as [Q|Q]; [ | reflexivity ].
    change (assert_ true true) with (@Ok unit tt). cbn [bind]. rewrite (missing_column _ Q N). reflexivity.
Qed.

(** * The linear search *)
Lemma linear_runs cur c : In c cols -> forall n j, j + n = nnz -> j <= nless c -> linear vs o n j cur c = Ok (nless c).
Proof.
  intros Hc. induction n as [|n IH]; intros j E L; [ pose proof (col_at _ Hc); lia | ]. cbn [linear].
  destruct (nth_error cols j) as [x|] eqn:X; [ | apply nth_error_None in X; lia ]. rewrite (@read_at _ _ X). cbn [bind].
  destruct (Z.eqb_spec x c) as [->|N].
  - f_equal. destruct (Nat.eq_dec j (nless c)) as [Q|Q]; [ exact Q | ].
    pose proof (proj2 (increasing_strong Z.ltb cols) I) as I2. pose proof (I2 j (nless c) c c ltac:(lia) X (nless_at _ Hc)) as K. apply Z.ltb_lt in K. lia.
  - apply IH; [ lia | ]. destruct (Nat.eq_dec j (nless c)) as [Q|Q]; [ | lia ]. rewrite Q, (nless_at _ Hc) in X. congruence.
Qed.
Lemma linear_missing cur c : ~ In c cols -> forall n j, j + n = nnz -> linear vs o n j cur c = Ok cur.
Proof.
  intros N. induction n as [|n IH]; intros j E; [ reflexivity | ]. cbn [linear].
  destruct (nth_error cols j) as [x|] eqn:X; [ | apply nth_error_None in X; lia ]. rewrite (@read_at _ _ X). cbn [bind].
  destruct (Z.eqb_spec x c) as [->|_]; [ destruct N; eapply nth_error_In; eauto | ]. apply IH. lia.
Qed.
Lemma lin_here dbg b cur (cv : Z * W) : cur <= nnz -> before cur (fst cv) -> In (fst cv) cols ->
  lin_step dbg tw add vs o e nnz (b, cur) cv = (b' <- add_at tw add b (e + nless (fst cv)) (snd cv) ;; Ok (b', nless (fst cv) + 1)).
Proof.
  intros L B Hc. unfold lin_step. rewrite (@linear_runs cur (fst cv) Hc) by (try lia; apply (@search dbg cur _ L B)). cbn [bind].
  rewrite (there_column dbg _ Hc). reflexivity.
Qed.
Lemma lin_runs adds : forall b cur, live b e nnz -> cur <= nnz -> incr (map fst adds) ->
  (forall c, In c (map fst adds) -> before cur c /\ In c cols) ->
  runs (lin_step true tw add vs o e nnz) adds (b, cur) = runs (lin_step false tw add vs o e nnz) adds (b, cur).
Proof.
  induction adds as [|[c v] adds IH]; intros b cur Lb L Ia B; [ reflexivity | ]. cbn [runs map fst] in *.
  destruct (B c (or_introl eq_refl)) as [Bc R]. rewrite !(@lin_here _ b cur (c, v)) by auto. cbn [fst snd].
  destruct (@add_live b e nnz (nless c) v Lb (col_at _ R)) as (b' & E & Lb'). rewrite E. cbn [bind].
  inversion Ia as [|? ? Ia' F]; subst. pose proof (col_at _ R). apply IH; auto; [ lia | ].
  intros c' Hc'. rewrite Forall_forall in F. specialize (F c' Hc'). apply Z.ltb_lt in F. split; [ apply before_next; assumption | ].
  apply B. right. exact Hc'.
Qed.
(** A missing column is found if the last column of the row has not been added to before. *)
Lemma lin_missing m c v post pre : forall b cur, live b e nnz -> cur <= nnz -> incr (map fst (pre ++ (c, v) :: post)) ->
  (forall c', In c' (map fst (pre ++ (c, v) :: post)) -> before cur c') ->
  (forall c', In c' (map fst pre) -> In c' cols) -> ~ In c cols ->
  In m cols -> (forall c', In c' (map fst pre) -> (c' < m)%Z) -> cur <= nless m ->
  runs (lin_step true tw add vs o e nnz) (pre ++ (c, v) :: post) (b, cur) = Abort.
Proof.
  induction pre as [|[c1 v1] pre IH]; intros b cur Lb L Ia B P N Hm Lm Cm; cbn [app runs map fst] in *.
  - unfold lin_step at 1. cbn [fst snd]. rewrite (@linear_missing cur c N) by lia. cbn [bind]. pose proof (col_at _ Hm).
    rewrite (missing_column (pos := cur)) by (auto; lia). reflexivity.
  - pose proof (P c1 (or_introl eq_refl)) as R. rewrite (@lin_here _ b cur (c1, v1)) by (auto; apply B; left; reflexivity). cbn [fst snd].
    destruct (@add_live b e nnz (nless c1) v1 Lb (col_at _ R)) as (b' & E & Lb'). rewrite E. cbn [bind].
    inversion Ia as [|? ? Ia' F]; subst. pose proof (col_at _ R). apply IH; auto; [ lia | | intros c' Hc'; apply P; right; exact Hc' | intros c' Hc'; apply Lm; right; exact Hc' | ].
    + intros c' Hc'. rewrite Forall_forall in F. specialize (F c' Hc'). apply Z.ltb_lt in F. apply before_next; assumption.
    + specialize (Lm c1 (or_introl eq_refl)). destruct (le_lt_dec (nless c1 + 1) (nless m)) as [Q|Q]; [ exact Q | exfalso ].
      pose proof (@before_next c1 m Lm R) as K. pose proof (nless_at _ Hm) as Nm. specialize (K (nless m) m ltac:(lia) Nm).
      rewrite Z.ltb_irrefl in K. discriminate.
Qed.
End On.
