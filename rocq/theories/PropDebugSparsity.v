(** C91: SparsityPattern in a debug build. *)
From Coq Require Import List Arith ZArith Lia Bool.
From Verif Require Import Base BaseProofs Mem BufferManip SortedSpec SortedArraySpec Debug AoA AoASpec AoS AoSSpec Sparsity SparsitySpec PropSparsity
  DebugSorted DebugSets DebugSparsity.
From Verif Require AoALayout SetsProofs2 SortedProofs SparsityProofs DebugProofs DebugProofs2 DebugSortedProofs DebugSetsProofs DebugSparsityProofs Sorted.
Import ListNotations.
Set Implicit Arguments.

(** SparsityPattern< COL_TYPE > p( nr, nc, cap ), then the calls of [h], in a debug build. *)
Definition d_pdriven (dbg chk : bool) (cmax : Z) (nr nc cap : nat) (h : list pcall) : outcome (pattern unit) :=
  p <- d_new_sp unit dbg chk true false BMalloc cmax nr nc cap ;; d_prun dbg chk true false BMalloc cmax h p.

Lemma d_new_ok dbg chk cmax nr nc cap : (Z.of_nat nc - 1 <= cmax)%Z ->
  exists p, new_sp unit chk true false BMalloc cmax nr nc cap = Ok p /\ d_new_sp unit dbg chk true false BMalloc cmax nr nc cap = Ok p /\ prep p (repeat none nr, nc).
Proof.
  intros C. destruct (@SparsityProofs.new_prep unit tt chk true cmax nr nc cap) as (p & E & R); [apply Z.ltb_ge; auto|].
  exists p. split; [ exact E | ]. split; [ | exact R ]. revert E.
  enough (I : DebugProofs.imp (new_sp unit chk true false BMalloc cmax nr nc cap) (d_new_sp unit dbg chk true false BMalloc cmax nr nc cap)) by apply I.
  unfold new_sp, d_new_sp, sp_resize, d_sp_resize. apply DebugProofs.imp_same. intros _ _.
  apply DebugProofs.imp_bind; [ apply DebugProofs2.g_resizeImpl_i | intros; apply DebugProofs.imp_refl ].
Qed.

(** A valid history ends with the same pattern; empty() and the members of the view which insert do the same on it. *)
Theorem C91_allowed : forall dbg chk cmax nr nc cap h M nc', (Z.of_nat nc - 1 <= cmax)%Z ->
  pvalid cmax h (repeat none nr, nc) -> pat_run cmax h (repeat none nr, nc) = Some (M, nc') ->
  exists p, d_pdriven dbg chk cmax nr nc cap h = Ok p /\ pdriven chk cmax nr nc cap h = Ok p /\ pshows chk p (M, nc') /\
    forall i S, nth_error M i = Some S ->
      (forall c, d_sp_empty dbg chk BMalloc p i c = sp_empty chk p i c) /\
      (forall c r, v_insertNonZero chk p i c = Ok r -> d_v_insertNonZero dbg chk BMalloc p i c = Ok r) /\
      (forall cs r, increasing Z.ltb cs -> v_insertNonZeros chk p i cs = Ok r -> d_v_insertNonZeros dbg chk BMalloc p i cs = Ok r).
Proof.
  intros dbg chk cmax nr nc cap h M nc' C V H.
  pose proof (@pdriven_rep chk cmax nr nc cap h C V) as D. rewrite H in D. destruct D as (p & E & R). exists p.
  split; [ | split; [ exact E | split; [ exact (prep_shows chk R) | ] ] ].
  - destruct (@d_new_ok dbg chk cmax nr nc cap C) as (p0 & E1 & E2 & R0). unfold pdriven in E. unfold d_pdriven. rewrite E1 in E. rewrite E2. cbn [bind] in *.
    exact (@DebugSparsityProofs.d_prun_imp unit tt dbg chk true cmax h p0 _ _ R0 V H p E).
  - intros i S N. split; [ | split ].
    + intros c. pose proof R as (Rr & _). cbn [fst] in Rr.
      destruct (@DebugSetsProofs.seen Z unit (fun _ => tt) chk true true Z.ltb (rows p) M i S Rr N) as (A & r & k & B & _ & _ & I & E1 & E2 & E3 & Vw).
      unfold d_sp_empty, sp_empty, d_aos_contains, aos_contains. rewrite E1, E2, E3. cbn [bind].
      rewrite (DebugSortedProofs.d_contains_eq dbg BMalloc SparsityProofs.zorder c Vw I). reflexivity.
    + intros c r Er. exact (@DebugSparsityProofs.d_v_insertNonZero_imp unit tt dbg chk true p M nc' i S c R N r Er).
    + intros cs r Iv Er. exact (@DebugSparsityProofs.d_v_insertNonZeros_imp unit tt dbg chk true p M nc' i S cs R N Iv r Er).
Qed.
Print Assumptions C91_allowed.

(** What is left to the caller with assertions and bounds checks: inserted columns are within range and a resize does not cut off
    columns in use. Rows, ranges and the columns of removeNonZero(s) are arbitrary. *)
Definition kept (c : pcall) (st : pat_state) : Prop :=
  match c with
  | PResize nr nc _ => forall S x, In S (firstn nr (fst st)) -> S x -> in_range nc x
  | PInsert _ col => in_range (snd st) col
  | PInserts _ cols => Forall (in_range (snd st)) cols
  | _ => True
  end.
Fixpoint kept_all (cmax : Z) (h : list pcall) (st : pat_state) : Prop :=
  match h with
  | [] => True
  | c :: h' => kept c st /\ match pat_step cmax c st with Some st' => pallowed c st -> kept_all cmax h' st' | None => True end
  end.
Lemma kept_dec c st : kept c st -> pallowed c st \/ ~ pallowed c st.
Proof.
  assert (K : forall vs, increasing Z.ltb vs \/ ~ increasing Z.ltb vs).
  { intros vs. destruct (Sorted.isSortedUnique Z.ltb vs) eqn:E; [ left; apply (SortedProofs.isSortedUnique_iff (to_swo SparsityProofs.zorder)); exact E | right; intros N ].
    apply (SortedProofs.isSortedUnique_iff (to_swo SparsityProofs.zorder)) in N. congruence. }
  assert (Q : forall v nc, in_range nc v \/ ~ in_range nc v).
  { intros v nc. unfold in_range. lia. }
  assert (F : forall vs nc, Forall (in_range nc) vs \/ ~ Forall (in_range nc) vs).
  { intros vs nc. induction vs as [|v vs [IH|IH]]; [ left; constructor | | right; intros N; inversion N; contradiction ].
    destruct (Q v nc); [ left; constructor; assumption | right; intros N; inversion N; contradiction ]. }
  destruct c as [nr nc1 cap|nc1 caps|n|n|i n|i c| |c|i v|i vs|i v|i vs]; simpl; auto.
  - intros Fv. destruct (K vs); [ left; split; assumption | right; tauto ].
  - intros _. destruct (K vs); destruct (F vs (snd st)); [ left; split; assumption | right; tauto | right; tauto | right; tauto ].
Qed.
Lemma not_allowed_aborts cmax c (p : pattern unit) st : prep p st -> kept c st -> ~ pallowed c st -> d_pstep true true true false BMalloc cmax c p = Abort.
Proof.
  destruct st as [M nc]. intros R K N. destruct c as [nr nc1 cap|nc1 caps|n|n|i n|i c| |c|i v|i vs|i v|i vs]; cbn [pallowed kept fst snd] in *; try (exfalso; tauto); cbn [d_pstep].
  - apply (@DebugSparsityProofs.unsorted_inserts unit tt true p M nc i vs R). tauto.
  - rewrite (@DebugSparsityProofs.out_remove unit tt true p M nc i v R N). reflexivity.
  - apply (@DebugSparsityProofs.unsorted_removes unit tt true p M nc i vs R N).
Qed.
Lemma pattern_or_abort cmax h : forall (p : pattern unit) st, prep p st -> kept_all cmax h st ->
  (pvalid cmax h st /\ exists st' p', pat_run cmax h st = Some st' /\ d_prun true true true false BMalloc cmax h p = Ok p' /\ prep p' st') \/
  ((~ pvalid cmax h st \/ pat_run cmax h st = None) /\ d_prun true true true false BMalloc cmax h p = Abort).
Proof.
  induction h as [|c h IH]; intros p st R K.
  - left. split; [ exact I | ]. exists st, p. split; [ reflexivity | split; [ reflexivity | exact R ] ].
  - destruct K as [Kc K]. cbn [pvalid pat_run d_prun]. destruct (@kept_dec c st Kc) as [Ac|Nc].
    2: { right. split; [ left; tauto | ]. rewrite (@not_allowed_aborts cmax c p st R Kc Nc). reflexivity. }
    pose proof (@SparsityProofs.pstep_ok unit tt true true cmax c p st R Ac) as Ok1. destruct (pat_step cmax c st) as [st1|] eqn:St.
    + destruct Ok1 as ([p1 r] & E1 & R1 & _). cbn [fst] in R1.
      rewrite (@DebugSparsityProofs.d_pstep_imp unit tt true true true cmax c p st st1 R Ac St _ E1). cbn [bind].
      destruct (IH p1 st1 R1 (K Ac)) as [(V & Q)|(V & Q)]; [ left | right ].
      * split; [ split; assumption | exact Q ].
      * split; [ destruct V as [V|V]; [ left; tauto | right; exact V ] | exact Q ].
    + right. split; [ right; reflexivity | ]. rewrite (@DebugSparsityProofs.missing_row unit tt true cmax c p st R Ac St). reflexivity.
Qed.
(** With bounds checks such a history is carried out as on a vector of sets of columns, or aborts. *)
Theorem C91_pattern_or_abort : forall cmax nr nc cap h, (Z.of_nat nc - 1 <= cmax)%Z -> kept_all cmax h (repeat none nr, nc) ->
  (pvalid cmax h (repeat none nr, nc) /\ exists st p, pat_run cmax h (repeat none nr, nc) = Some st /\
     d_pdriven true true cmax nr nc cap h = Ok p /\ pshows true p st) \/
  ((~ pvalid cmax h (repeat none nr, nc) \/ pat_run cmax h (repeat none nr, nc) = None) /\ d_pdriven true true cmax nr nc cap h = Abort).
Proof.
  intros cmax nr nc cap h C K. destruct (@d_new_ok true true cmax nr nc cap C) as (p0 & _ & E & R). unfold d_pdriven. rewrite E. cbn [bind].
  destruct (@pattern_or_abort cmax h p0 _ R K) as [(V & st & p & H & E1 & R1)|Q]; [ left | right; exact Q ].
  split; [ exact V | ]. exists st, p. split; [ exact H | ]. split; [ exact E1 | exact (prep_shows true R1) ].
Qed.
Print Assumptions C91_pattern_or_abort.

(** Without the two conditions it is neither: no assertion and no bounds check sees that a column out of range, or a row which a resize
    made too long, is written over a column of the next row (C31, C57). *)
Theorem C91_column_refuted : exists p p',
  d_pdriven true true 100 2 1 1 [PInsert 0 0%Z; PInsert 1 0%Z] = Ok p /\ d_sp_empty true true BMalloc p 1 0%Z = Ok false /\
  d_insertNonZero true true true false BMalloc p 0 7%Z = Ok (p', true) /\
  numNonZeros true p' 0 = Ok 2 /\ nonZeroCapacity true p' 0 = Ok 1 /\ column true p' 1 0 = Ok 7%Z /\ d_sp_empty true true BMalloc p' 1 0%Z = Ok true.
Proof. eexists. eexists. do 6 (split; [vm_compute; reflexivity|]). vm_compute. reflexivity. Qed.
Print Assumptions C91_column_refuted.
Theorem C91_resize_refuted : exists p p',
  d_pdriven true true 100 2 4 0 [PInserts 0 [1%Z; 2%Z; 3%Z]; PInserts 1 [0%Z; 1%Z]; PCompress; PResize 2 2 0] = Ok p /\ ncols p = 2 /\
  d_sp_empty true true BMalloc p 1 0%Z = Ok false /\ d_insertNonZero true true true false BMalloc p 0 0%Z = Ok (p', true) /\
  numNonZeros true p' 0 = Ok 3 /\ nonZeroCapacity true p' 0 = Ok 2.
Proof. eexists. eexists. do 5 (split; [vm_compute; reflexivity|]). vm_compute. reflexivity. Qed.
Print Assumptions C91_resize_refuted.

Definition pattern_history : list pcall :=
  [PInserts 0 [1; 3; 4]%Z; PAppendRow 1; PInserts 0 [0; 3; 5]%Z; PInsert 2 2%Z; PRemoves 0 [1; 2; 5]%Z; PRemove 2 0%Z; PSetRowCapacity 0 9; PCompress].
Example C91_case :
  (exists p, d_pdriven true true 100 2 6 0 pattern_history = Ok p /\ pdriven true 100 2 6 0 pattern_history = Ok p /\
     numNonZeros true p 0 = Ok 3 /\ column true p 0 2 = Ok 4%Z) /\
  kept_all 100 [PInserts 1 [3; 2]%Z] (repeat none 2, 6) /\ d_pdriven true true 100 2 6 0 [PInserts 1 [3; 2]%Z] = Abort /\
  d_pdriven true true 100 2 6 0 [PRemove 1 6%Z] = Abort /\ d_pdriven true true 100 2 6 0 [PInsert 2 1%Z] = Abort.
Proof.
  split; [ eexists; split; [vm_compute; reflexivity|split; [vm_compute; reflexivity|split; vm_compute; reflexivity]] | ].
  split; [ split; [ repeat constructor; unfold in_range; simpl; lia | simpl; auto ] | ].
  split; [vm_compute; reflexivity|]. split; vm_compute; reflexivity.
Qed.
