(** Properties of SparsityPattern (C30, C31, C57): the theorems and their non-vacuity examples. *)
From Coq Require Import List Arith ZArith Lia Bool.
From Verif Require Import Base BaseProofs Mem BufferManip SortedSpec SortedArraySpec AoA AoASpec AoS AoSSpec Sparsity SparsitySpec.
From Verif Require AoALayout AoAProofs4 SetsProofs SetsProofs2 AoSProofs AoSProofs2 SortedProofs SparsityProofs SparsityProofs2.
Import ListNotations.
Set Implicit Arguments.

(** SparsityPattern< COL_TYPE > p( nr, nc, cap ), then the calls of [h]. *)
Definition pdriven (chk : bool) (cmax : Z) (nr nc cap : nat) (h : list pcall) : outcome (pattern unit) :=
  p <- new_sp unit chk true false BMalloc cmax nr nc cap ;; prun chk true false BMalloc cmax h p.
Definition pstep1 (chk : bool) (cmax : Z) := pstep (W := unit) chk true false BMalloc cmax.

(** What can be read: the numbers of rows, columns and non-zeros, the columns of each row and empty(). *)
Definition pshows (chk : bool) (p : pattern unit) (st : pat_state) : Prop :=
  let '(M, nc) := st in
  ncols p = nc /\ numArrays (rows p) = length M /\
  (forall i S, nth_error M i = Some S ->
     exists l, is_set Z.ltb l S /\ Forall (in_range nc) l /\ numNonZeros chk p i = Ok (length l) /\
       (forall j c, nth_error l j = Some c -> column chk p i j = Ok c) /\
       (forall c, exists b, sp_empty chk p i c = Ok b /\ (b = true <-> ~ S c))) /\
  (forall ns, Forall2 (fun S n => cardinal S n) M ns -> totalNonZeros chk p = Ok (list_sum ns)).

Notation prep := (@SparsityProofs.prep unit tt true).
Lemma prep_shows chk p st : prep p st -> pshows chk p st.
Proof.
  destruct st as [M nc]. intros PR. pose proof PR as (R & E & G). cbn [fst snd] in *. split; [exact E|].
  split; [exact (SetsProofs2.rep_num R)|]. split.
  - intros i S N. pose proof R as (L & H & F).
    destruct (SetsProofs2.f2_at F N) as (A & r & k & B & EL & <- & [I Rs] & _). simpl in *. exists r. split; [|split; [|split; [|split]]].
    + split; auto. apply (SortedProofs.increasing_strong Z.ltb). exact I.
    + apply Forall_forall. intros x Hx. apply Rs in Hx. exact (SparsityProofs.ranged_at G N Hx).
    + pose proof H as [Ia _]. rewrite EL in Ia. exact (SetsProofs.row_size chk Ia).
    + intros j v J. unfold column. eapply (@AoAProofs4.rep_at Z unit chk true true (fun _ => tt) (rows p) (map fst L) (map (@AoALayout.wid Z) L)); [|  |exact J].
      * exists L. auto.
      * rewrite EL, map_app. rewrite nth_error_app2 by (rewrite map_length; auto). rewrite map_length, Nat.sub_diag. reflexivity.
    + intros c. unfold sp_empty. destruct (SetsProofs2.rep_contains chk SparsityProofs.zorder c R N) as (b & Eb & Hb). rewrite Eb. cbn [bind].
      exists (negb b). split; auto. rewrite negb_true_iff, <- not_true_iff_false, Hb.
      split; intros K C; apply K; [exists c; auto|destruct C as (x & Hx & <-); auto].
  - intros ns F. eapply SparsityProofs.total_ok; eauto.
Qed.
Lemma pdriven_rep chk cmax nr nc cap h : (Z.of_nat nc - 1 <= cmax)%Z -> pvalid cmax h (repeat none nr, nc) ->
  match pat_run cmax h (repeat none nr, nc) with
  | Some st => exists p, pdriven chk cmax nr nc cap h = Ok p /\ prep p st
  | None => chk = true -> pdriven chk cmax nr nc cap h = Abort
  end.
Proof.
  intros C V. unfold pdriven.
  destruct (@SparsityProofs.new_prep unit tt chk true cmax nr nc cap) as (p & -> & R); [apply Z.ltb_ge; auto|]. cbn [bind].
  exact (@SparsityProofs.prun_ok unit tt chk true cmax h p _ R V).
Qed.

(** C30: every valid history ends normally; rows are strictly increasing columns below numColumns(). *)
Theorem C30_sorted_rows : forall chk cmax nr nc cap h st, (Z.of_nat nc - 1 <= cmax)%Z ->
  pvalid cmax h (repeat none nr, nc) -> pat_run cmax h (repeat none nr, nc) = Some st ->
  exists p, pdriven chk cmax nr nc cap h = Ok p /\ pshows chk p st.
Proof.
  intros chk cmax nr nc cap h st C V H. pose proof (@pdriven_rep chk cmax nr nc cap h C V) as D. rewrite H in D.
  destruct D as (p & E & R). exists p. split; [exact E|]. exact (prep_shows chk R).
Qed.
Print Assumptions C30_sorted_rows.

(** The next call returns by how many columns its row grows or shrinks. *)
Theorem C30_returns : forall chk cmax nr nc cap h st c st' p, (Z.of_nat nc - 1 <= cmax)%Z ->
  pvalid cmax h (repeat none nr, nc) -> pat_run cmax h (repeat none nr, nc) = Some st -> pdriven chk cmax nr nc cap h = Ok p ->
  pallowed c st -> pat_step cmax c st = Some st' ->
  exists p' r, pstep1 chk cmax c p = Ok (p', r) /\ preturns c (fst st) (fst st') r /\ pshows chk p' st'.
Proof.
  intros chk cmax nr nc cap h st c st' p C V H E Al Hc. pose proof (@pdriven_rep chk cmax nr nc cap h C V) as D. rewrite H in D.
  destruct D as (p0 & E0 & R). rewrite E in E0. injection E0 as <-.
  pose proof (@SparsityProofs.pstep_ok unit tt chk true cmax c p st R Al) as St. rewrite Hc in St.
  destruct St as ([p' r] & E1 & R1 & Rt). exists p', r. split; [exact E1|]. split; [exact Rt|exact (prep_shows chk R1)].
Qed.
Print Assumptions C30_returns.

(** With bounds checks: a row which does not exist, or more columns than COL_TYPE can hold. *)
Theorem C30_invalid_aborts : forall cmax nr nc cap h, (Z.of_nat nc - 1 <= cmax)%Z ->
  pvalid cmax h (repeat none nr, nc) -> pat_run cmax h (repeat none nr, nc) = None ->
  pdriven true cmax nr nc cap h = Abort.
Proof. intros cmax nr nc cap h C V H. pose proof (@pdriven_rep true cmax nr nc cap h C V) as D. rewrite H in D. auto. Qed.
Print Assumptions C30_invalid_aborts.
Theorem C30_too_many_columns : forall chk cmax nr nc cap h, (cmax < Z.of_nat nc - 1)%Z -> pdriven chk cmax nr nc cap h = Abort.
Proof.
  intros chk cmax nr nc cap h C. unfold pdriven, new_sp, sp_resize, check_numCols. apply Z.ltb_lt in C. rewrite C. reflexivity.
Qed.
Print Assumptions C30_too_many_columns.

(** insertNonZero through a view: no growth. *)
Theorem C30_view_insert : forall chk cmax nr nc cap h M nc' p i S col c m, (Z.of_nat nc - 1 <= cmax)%Z ->
  pvalid cmax h (repeat none nr, nc) -> pat_run cmax h (repeat none nr, nc) = Some (M, nc') -> pdriven chk cmax nr nc cap h = Ok p ->
  nth_error M i = Some S -> nonZeroCapacity chk p i = Ok c -> cardinal (fun x => x = col \/ S x) m ->
  (in_range nc' col -> m <= c -> exists p' r, v_insertNonZero chk p i col = Ok (p', r) /\
     pshows chk p' (put_at M i (fun x => x = col \/ S x), nc') /\ (forall n, cardinal S n -> m = n + flag r) /\ nonZeroCapacity chk p' i = Ok c) /\
  (chk = true -> in_range nc' col -> c < m -> v_insertNonZero chk p i col = Abort) /\
  (chk = true -> ~ in_range nc' col -> v_insertNonZero chk p i col = Abort /\ removeNonZero chk p i col = Abort).
Proof.
  intros chk cmax nr nc cap h M nc' p i S col c m C V H E N Ec Cm. pose proof (@pdriven_rep chk cmax nr nc cap h C V) as D. rewrite H in D.
  destruct D as (p0 & E0 & PR). rewrite E in E0. injection E0 as <-. pose proof PR as (R & En & G). cbn [fst snd] in *.
  assert (Ex : forall x, AoSProofs.sum_set S [col] x <-> (x = col \/ S x)) by (intros x; unfold AoSProofs.sum_set; simpl; intuition).
  assert (Cm' : cardinal (AoSProofs.sum_set S [col]) m) by (eapply SparsityProofs.card_ext; [|exact Cm]; intros x; symmetry; apply Ex).
  unfold v_insertNonZero, removeNonZero. rewrite (SparsityProofs.rep_check chk R N). cbn [bind]. split; [|split].
  - intros Hr Le. rewrite (SparsityProofs.check_range chk En Hr). cbn [bind].
    destruct (@AoSProofs.view_insert Z unit (fun _ => tt) chk true true Z.ltb Z.eqb SparsityProofs.zorder (rows p) M i S col c R N Ec) as ([a' r] & E' & R' & Pl & Ec').
    + intros m' C'. destruct C' as (l & Nd & Hl & <-). destruct Cm' as (l2 & Nd2 & Hl2 & <-).
      apply Nat.le_trans with (length l2); auto. apply NoDup_incl_length; auto. intros x Hx. apply Hl2, Hl. auto.
    + cbn [fst snd] in *. unfold with_rows. rewrite E'. cbn [bind]. eexists _, r. split; [reflexivity|]. split; [|split].
      * apply prep_shows. eapply SparsityProofs.prep_cast with (M := put_at M i (AoSProofs.sum_set S [col])).
        -- split; [exact R'|]. split; [exact En|]. apply SparsityProofs.ranged_put; [exact G|].
           apply SparsityProofs.in_sum; [exact (SparsityProofs.ranged_at G N)|auto].
        -- apply AoSProofs.put_ext. exact Ex.
      * intros n Cn. apply Pl; auto.
      * exact Ec'.
  - intros -> Hr Lt. rewrite (SparsityProofs.check_range true En Hr). cbn [bind]. unfold with_rows.
    erewrite (@AoSProofs2.view_full Z unit (fun _ => tt)); eauto using SparsityProofs.zorder.
  - intros -> Hr. assert (K : column_check true p col = Abort).
    { unfold column_check, check_if. simpl. replace ((col <? 0)%Z || (Z.of_nat (ncols p) <=? col)%Z) with true; auto.
      symmetry. apply orb_true_iff. unfold in_range in Hr. rewrite En. rewrite Z.ltb_lt, Z.leb_le. lia. }
    rewrite K. auto.
Qed.
Print Assumptions C30_view_insert.

Definition hp : list pcall :=
  [PInsert 0 3%Z; PInserts 1 [0%Z; 2%Z; 4%Z]; PInsert 0 1%Z; PInsert 1 3%Z; PAppendRow 9; PInserts 2 [0%Z; 1%Z; 2%Z; 3%Z; 4%Z];
   PInsert 1 1%Z; PCompress; PRemoves 1 [1%Z; 4%Z]; PSetRowCapacity 2 2; PResize 3 6 1; PInsert 2 5%Z; PReserveRow 0 20].
Example C30_case :
  (exists M, pat_run 100 hp (repeat none 2, 5) = Some (M, 6) /\ length M = 3) /\
  (p <- pdriven true 100 2 5 1 hp ;; n0 <- numNonZeros true p 0 ;; n1 <- numNonZeros true p 1 ;; n2 <- numNonZeros true p 2 ;;
   c <- column true p 2 2 ;; e <- sp_empty true p 1 4%Z ;; t <- totalNonZeros true p ;; Ok (n0, n1, n2, c, e, t)) = Ok (2, 3, 3, 5%Z, true, 8).
Proof. split; [eexists; split; reflexivity|vm_compute; reflexivity]. Qed.
Ltac in_rows :=
  repeat match goal with
  | H : _ \/ _ |- _ => destruct H
  | H : _ /\ _ |- _ => destruct H
  | H : smallest _ _ _ _ |- _ => destruct H
  | H : none _ |- _ => destruct H
  | H : False |- _ => destruct H
  | H : In _ _ |- _ => simpl in H
  | H : _ = _ |- _ => subst
  end; try (unfold in_range; simpl; lia).
Ltac valid_history :=
  match goal with
  | |- pvalid _ _ _ => cbn [pvalid]; valid_history
  | |- pallowed _ _ => cbn [pallowed fst snd firstn]; valid_history
  | |- match pat_step ?c ?x ?y with _ => _ end => let r := eval cbn in (pat_step c x y) in change (pat_step c x y) with r; cbv iota; valid_history
  | |- _ /\ _ => split; valid_history
  | |- True => exact Logic.I
  | |- increasing _ _ => apply (SortedProofs.increasing_strong Z.ltb); repeat constructor
  | |- Forall _ _ => repeat constructor; unfold in_range; simpl; lia
  | |- in_range _ _ => unfold in_range; simpl; lia
  | |- forall S x, _ => intros S x I Sx; simpl in I; repeat (destruct I as [<-|I]); in_rows
  end.
Example C30_case_valid : pvalid 100 hp (repeat none 2, 5).
Proof. unfold hp. valid_history. Qed.

(** C31: a column which is out of range, inserted into a row holding numColumns() columns: also with bounds
    checks the call returns with more columns than the row has room for, or runs into undefined behaviour. *)
Theorem C31_full_row_overflows : forall chk cmax nr nc cap h M nc' p i S col, (Z.of_nat nc - 1 <= cmax)%Z ->
  pvalid cmax h (repeat none nr, nc) -> pat_run cmax h (repeat none nr, nc) = Some (M, nc') -> pdriven chk cmax nr nc cap h = Ok p ->
  nth_error M i = Some S -> cardinal S nc' -> nonZeroCapacity chk p i = Ok nc' -> ~ in_range nc' col ->
  match insertNonZero chk true false BMalloc p i col with
  | Ok (p', r) => r = true /\ numNonZeros chk p' i = Ok (nc' + 1) /\ nonZeroCapacity chk p' i = Ok nc'
  | Abort => False
  | Fault _ => True
  end.
Proof.
  intros chk cmax nr nc cap h M nc' p i S col C V H E N Cn Ec Hc. pose proof (@pdriven_rep chk cmax nr nc cap h C V) as D. rewrite H in D.
  destruct D as (p0 & E0 & PR). rewrite E in E0. injection E0 as <-.
  exact (@SparsityProofs2.full_row_overflow unit tt chk true p M nc' i S col PR N Cn Ec Hc).
Qed.
Print Assumptions C31_full_row_overflows.

(** The row after the full one is overwritten: column 7 appears in row 1, where it was never inserted, and
    column 0 is gone from it. With the full row at the end of the buffer the access is outside. *)
Theorem C31_neighbour_overwritten : exists h p, pvalid 100 h (repeat none 2, 1) /\ pdriven true 100 2 1 1 h = Ok p /\
  sp_empty true p 1 0%Z = Ok false /\
  exists p', insertNonZero true true false BMalloc p 0 7%Z = Ok (p', true) /\
    numNonZeros true p' 0 = Ok 2 /\ nonZeroCapacity true p' 0 = Ok 1 /\ column true p' 1 0 = Ok 7%Z /\ sp_empty true p' 1 0%Z = Ok true.
Proof.
  exists [PInsert 0 0%Z; PInsert 1 0%Z]. eexists. split; [valid_history|]. split; [vm_compute; reflexivity|].
  split; [vm_compute; reflexivity|]. eexists. split; [vm_compute; reflexivity|]. vm_compute. auto.
Qed.
Print Assumptions C31_neighbour_overwritten.
Theorem C31_outside_access : exists h p, pvalid 100 h (repeat none 1, 1) /\ pdriven true 100 1 1 1 h = Ok p /\
  insertNonZero true true false BMalloc p 0 7%Z = Fault FOob.
Proof.
  exists [PInsert 0 0%Z]. eexists. split; [valid_history|]. split; vm_compute; reflexivity.
Qed.
Print Assumptions C31_outside_access.
Example C31_case : exists p, pvalid 100 [PInsert 0 0%Z; PInsert 1 0%Z] (repeat none 2, 1) /\
  pdriven true 100 2 1 1 [PInsert 0 0%Z; PInsert 1 0%Z] = Ok p /\ nonZeroCapacity true p 0 = Ok 1 /\ ~ in_range 1 7%Z.
Proof. eexists. split; [valid_history|]. split; [vm_compute; reflexivity|]. split; [reflexivity|]. unfold in_range. lia. Qed.

(** C57: resize to fewer columns keeps the columns which are out of range now; after that an insertion within
    range first cuts the row down to numColumns() columns and then writes as if it had not, over the
    columns of the next row. *)
Theorem C57_shrunk_columns : exists p p1 p2,
  pdriven true 100 2 4 0 [PInserts 0 [1%Z; 2%Z; 3%Z]; PInserts 1 [0%Z; 1%Z]; PCompress] = Ok p /\
  sp_resize true true false BMalloc 100 p 2 2 0 = Ok p1 /\ ncols p1 = 2 /\
  column true p1 0 2 = Ok 3%Z /\ sp_empty true p1 1 0%Z = Ok false /\
  insertNonZero true true false BMalloc p1 0 0%Z = Ok (p2, true) /\
  numNonZeros true p2 0 = Ok 3 /\ nonZeroCapacity true p2 0 = Ok 2 /\ sp_empty true p2 1 0%Z = Ok true.
Proof. eexists. eexists. eexists. repeat (split; [vm_compute; reflexivity|]). vm_compute. reflexivity. Qed.
Print Assumptions C57_shrunk_columns.
