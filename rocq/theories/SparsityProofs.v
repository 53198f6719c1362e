(** SparsityPattern refines a vector of sets of columns. *)
From Coq Require Import List Arith ZArith Lia Bool Sorting.Sorted.
From Verif Require Import Base BaseProofs Mem MemProofs ArrayManipProofs BufferManip BufferManipProofs
  Sorted SortedSpec SortedProofs SortedProofs2 SortedProofs3 SortedArraySpec AoA AoASpec AoALayout AoAProofs AoAProofs2 AoAProofs4
  AoS AoSSpec SetsProofs SetsProofs2 AoSProofs Sparsity SparsitySpec.
From Verif Require ArrayManip AoAProofs3.
Import ListNotations.
Set Implicit Arguments.
Unset Strict Implicit.

Lemma zorder : total_order Z.ltb Z.eqb.
Proof.
  split; [split|..]; intros; rewrite ?Z.ltb_lt, ?Z.ltb_ge, ?Z.eqb_eq in *; try lia.
Qed.

Lemma filter_le {X} (f : X -> bool) l : length (filter f l) <= length l.
Proof. induction l as [|x l IH]; simpl; [lia|]. destruct (f x); simpl; lia. Qed.
Lemma in_firstn {X} n (l : list X) x : In x (firstn n l) -> In x l.
Proof. intros H. rewrite <- (firstn_skipn n l). apply in_app_iff. auto. Qed.
Lemma in_skipn {X} n (l : list X) x : In x (skipn n l) -> In x l.
Proof. intros H. rewrite <- (firstn_skipn n l). apply in_app_iff. auto. Qed.

(** At most [nc] columns are in range. *)
Lemma in_range_card (S : Z -> Prop) nc m : (forall x, S x -> in_range nc x) -> cardinal S m -> m <= nc.
Proof.
  intros H (l & N & Hl & <-).
  assert (E : length (map Z.of_nat (seq 0 nc)) = nc) by (rewrite map_length, seq_length; auto). rewrite <- E.
  apply NoDup_incl_length; auto. intros x Hx. apply Hl in Hx. destruct (H x Hx) as [H0 H1].
  apply in_map_iff. exists (Z.to_nat x). split; [apply Z2Nat.id; auto|]. apply in_seq. lia.
Qed.
(** So keeping the [c] smallest or the [min c nc] smallest is the same. *)
Lemma smallest_clamp (S : Z -> Prop) nc c : (forall x, S x -> in_range nc x) ->
  forall x, smallest (fun y x => (y <? x)%Z = true) (if nc <? c then nc else c) S x <-> smallest Z.lt c S x.
Proof.
  intros H x. unfold smallest.
  assert (Ex : forall n, cardinal (fun y => S y /\ (y <? x)%Z = true) n <-> cardinal (fun y => S y /\ (y < x)%Z) n).
  { intros n. split; intros (l & N & Hl & Len); exists l; (split; [auto|split; [|auto]]); intros y; rewrite (Hl y), Z.ltb_lt; tauto. }
  split; intros [Sx (n & Ln & C)]; (split; [exact Sx|]); exists n; (split; [|apply Ex; exact C]).
  - destruct (Nat.ltb_spec nc c); lia.
  - destruct (Nat.ltb_spec nc c); [|lia].
    destruct C as (l & N & Hl & <-).
    assert (cardinal (fun y => y = x \/ In y l) (Datatypes.S (length l))).
    { exists (x :: l). split; [|split; [|reflexivity]].
      - constructor; auto. intros K. apply Hl in K. lia.
      - intros y. simpl. split; intros [E|E]; auto. }
    apply (in_range_card (nc := nc)) in H1; [lia|]. intros y [->|Hy]; [auto|]. apply Hl in Hy. apply H, Hy.
Qed.

Section Pattern.
Variable W : Type.
Variable w0 : W.
Variable chk tw : bool.
Variable cmax : Z.
Notation kind := BMalloc.
Notation aoa := (aoa Z W).
Notation pattern := (pattern W).
Notation idv := (fun v : Z => v).
Notation fw := (fun _ : Z => w0).
Notation rep := (@rep Z Z W idv fw true tw false Z.ltb).
Implicit Types p : pattern.
Implicit Types M : list col_set.

Definition ranged nc M : Prop := forall S x, In S M -> S x -> in_range nc x.
(** The pattern [p] holds the sets and the number of columns of [st]. *)
Definition prep p (st : pat_state) : Prop := rep (rows p) (fst st) /\ ncols p = snd st /\ ranged (snd st) (fst st).

Lemma okb_allt Y (m : outcome Y) Q : okb (allt true tw false) m Q -> oks m Q.
Proof. rewrite AoAProofs3.allt_tv. intros [H|[H _]]; [exact H|discriminate]. Qed.
Lemma okb_t Y (m : outcome Y) Q : okb true m Q -> oks m Q.
Proof. intros [H|[H _]]; [exact H|discriminate]. Qed.

Lemma ranged_put nc M i (S : col_set) : ranged nc M -> (forall x, S x -> in_range nc x) -> ranged nc (put_at M i S).
Proof.
  intros R H S' x I. unfold put_at in I. apply in_app_iff in I. destruct I as [I|[<-|I]]; auto.
  - apply R. eapply in_firstn; eauto.
  - apply R. eapply in_skipn; eauto.
Qed.

Lemma clamp_ncols p nc n : ncols p = nc -> clamp p n = if nc <? n then nc else n.
Proof. intros <-. reflexivity. Qed.

Notation new := (new_sp W chk tw false kind cmax).
Lemma new_prep nr nc cap : (cmax <? Z.of_nat nc - 1)%Z = false -> oks (new nr nc cap) (fun p => prep p (repeat none nr, nc)).
Proof.
  intros C. unfold new_sp, sp_resize, check_numCols. rewrite C. cbn [error_if bind]. cbn [rows].
  eapply oks_bind.
  - exact (@new_rep Z Z W idv fw chk true tw false Z.ltb nr cap).
  - intros a R. apply oks_ok. split; [exact R|]. split; auto. intros S x I. apply repeat_spec in I. subst. intros [].
Qed.

Lemma prep_cast p M M' nc : prep p (M, nc) -> Forall2 (fun S S' : col_set => forall x, S x <-> S' x) M M' -> prep p (M', nc).
Proof.
  intros (R & E & G) F. split; [eapply rep_cast; eauto|]. split; auto. simpl in *. intros S x I Sx.
  clear -F G I Sx. induction F as [|S0 S1 M M' E F IH]; [destruct I|]. destruct I as [<-|I].
  - apply (G S0); [left; auto|apply E; auto].
  - apply IH; auto. intros S2 y I2. apply G. right. auto.
Qed.

Lemma quiet_ok st' (m : outcome pattern) c M : oks m (fun p' => prep p' st') -> preturns c M (fst st') 0 ->
  oks (quiet m) (fun r => prep (fst r) st' /\ preturns c M (fst st') (snd r)).
Proof. intros H K. unfold quiet. eapply oks_bind; [exact H|]. intros p' R. apply oks_ok. auto. Qed.
Lemma rows_ok (m : outcome aoa) p M' nc : oks m (fun a => rep a M') -> ncols p = nc -> ranged nc M' -> oks (on_rows m p) (fun p' => prep p' (M', nc)).
Proof. intros H E R. unfold on_rows. eapply oks_bind; [exact H|]. intros a Ra. apply oks_ok. split; auto. Qed.

Lemma ranged_at nc M i S : ranged nc M -> nth_error M i = Some S -> forall x, S x -> in_range nc x.
Proof. intros R N x Sx. eapply R; [eapply nth_error_In; eauto|auto]. Qed.

Lemma setRow_ok p M nc i S c : prep p (M, nc) -> nth_error M i = Some S ->
  oks (setRowCapacity chk tw false kind p i c) (fun p' => prep p' (put_at M i (smallest Z.lt c S), nc)).
Proof.
  intros (R & E & G) N. simpl in *. unfold setRowCapacity. rewrite (clamp_ncols c E). pose proof (ranged_at G N) as GS.
  eapply oks_mono.
  - apply rows_ok with (nc := nc); [|exact E|].
    + apply okb_allt. eapply (rep_setCapacity chk zorder); [exact R|exact N].
    + apply ranged_put; auto. intros x [Sx _]. apply GS; auto.
  - intros p' R'. eapply prep_cast; [exact R'|]. apply put_ext. intros x. apply (smallest_clamp c GS).
Qed.
Lemma smallest_all (S : col_set) nc c n : (forall x, S x -> in_range nc x) -> cardinal S n -> n <= c -> forall x, smallest Z.lt c S x <-> S x.
Proof.
  intros G (l & N & Hl & <-) Le x. unfold smallest. split; [tauto|]. intros Sx. split; auto.
  exists (length (filter (fun y => (y <? x)%Z) l)). split.
  - assert (E : length (filter (fun y => (y <? x)%Z) l) < length l); [|lia]. apply Hl in Sx. clear -Sx.
    induction l as [|y l IH]; [destruct Sx|]. simpl. destruct Sx as [->|H].
    + rewrite Z.ltb_irrefl. pose proof (filter_le (fun y => (y <? x)%Z) l). lia.
    + specialize (IH H). destruct (y <? x)%Z; simpl; lia.
  - exists (filter (fun y => (y <? x)%Z) l). split; [apply NoDup_filter; auto|]. split; auto.
    intros y. rewrite filter_In, Hl, Z.ltb_lt. tauto.
Qed.
Lemma reserveRow_ok p M nc i S c : prep p (M, nc) -> nth_error M i = Some S ->
  oks (reserveRow chk tw false kind p i c) (fun p' => prep p' (M, nc)).
Proof.
  intros (R & E & G) N. simpl in *. pose proof R as (L & H & F). destruct (f2_at F N) as (A & r & k & B & -> & <- & Rs & Pt). pose proof H as [I _].
  unfold reserveRow, nonZeroCapacity. rewrite (row_capacity chk I). cbn [bind].
  destruct (Nat.leb_spec c (length r + k)) as [Le|Gt]; [apply oks_ok; split; auto|].
  eapply oks_mono; [eapply setRow_ok; [split; [exact R|split; [exact E|exact G]]|exact N]|].
  intros p' R'. simpl in R'. eapply prep_cast; [exact R'|]. rewrite <- (f2_same N) at 2. apply put_ext.
  pose proof (rowset_card zorder Rs) as C. simpl in C. eapply smallest_all; [exact (ranged_at G N)|exact C|lia].
Qed.
Lemma append_prep p M nc c : prep p (M, nc) -> oks (appendRow chk tw false kind p c) (fun p' => prep p' (M ++ [none], nc)).
Proof.
  intros (R & E & G). simpl in *. unfold appendRow, setRowCapacity, on_rows. cbn [rows ncols].
  pose proof (@rep_append Z Z W idv fw chk true tw false Z.ltb (rows p) M (clamp p c) R) as K. apply okb_allt in K. unfold appendSet in K.
  destruct K as (a' & K & Ra). destruct (push_array chk kind (rows p)) as [a1| |] eqn:Ep; try discriminate. cbn [bind] in *.
  unfold clamp in *. cbn [ncols] in *. rewrite K. cbn [bind]. apply oks_ok. split; [exact Ra|]. split; auto.
  simpl. intros S x I. apply in_app_iff in I. destruct I as [I|[<-|[]]]; [apply G; auto|intros []].
Qed.

Lemma in_sum (S : col_set) nc vs : (forall x, S x -> in_range nc x) -> Forall (in_range nc) vs -> forall x, sum_set S vs x -> in_range nc x.
Proof. intros G F x [I|I]; auto. rewrite Forall_forall in F. auto. Qed.
Lemma grow_enough p (S : col_set) nc vs : ncols p = nc -> (forall x, S x -> in_range nc x) -> Forall (in_range nc) vs ->
  forall m, cardinal (sum_set S vs) m -> m <= clamp p (m * 2).
Proof.
  intros E G F m C. apply (in_range_card (nc := nc)) in C; [|apply in_sum; auto]. unfold clamp. rewrite E.
  destruct (Nat.ltb_spec nc (m * 2)); lia.
Qed.
Lemma insert_prep p M nc i S v : prep p (M, nc) -> nth_error M i = Some S -> in_range nc v ->
  oks (insertNonZero chk tw false kind p i v)
    (fun r => prep (fst r) (put_at M i (sum_set S [v]), nc) /\ plus (flag (snd r)) S (sum_set S [v])).
Proof.
  intros (R & E & G) N Hv. simpl in *. pose proof (ranged_at G N) as GS. unfold insertNonZero, with_rows, sp_cb.
  eapply oks_bind.
  - apply okb_t. eapply (@rep_insert Z W fw chk true tw Z.ltb Z.eqb zorder); [exact R|exact N|].
    apply (grow_enough E GS). auto.
  - intros [a r] [R' Pl]. apply oks_ok. cbn [fst snd] in *. split; [|exact Pl]. split; [exact R'|]. split; auto.
    apply ranged_put; auto. apply in_sum; auto.
Qed.
Lemma inserts_prep p M nc i S vs : prep p (M, nc) -> nth_error M i = Some S -> increasing Z.ltb vs -> Forall (in_range nc) vs ->
  oks (insertNonZeros chk tw false kind p i vs)
    (fun r => prep (fst r) (put_at M i (sum_set S vs), nc) /\ plus (snd r) S (sum_set S vs)).
Proof.
  intros (R & E & G) N Iv Hv. simpl in *. pose proof (ranged_at G N) as GS. unfold insertNonZeros, with_rows, sp_cb.
  eapply oks_bind.
  - apply okb_t. eapply (@rep_inserts Z W fw chk true tw Z.ltb Z.eqb zorder); [exact R|exact N|apply increasing_strong; exact Iv|].
    apply (grow_enough E GS). auto.
  - intros [a r] [R' Pl]. apply oks_ok. cbn [fst snd] in *. split; [|exact Pl]. split; [exact R'|]. split; auto.
    apply ranged_put; auto. apply in_sum; auto.
Qed.
Lemma check_range p nc v : ncols p = nc -> in_range nc v -> column_check chk p v = Ok tt.
Proof.
  intros E [H0 H1]. unfold column_check. apply check_if_ok. rewrite E. apply orb_false_iff. split; [apply Z.ltb_ge|apply Z.leb_gt]; auto.
Qed.
Lemma checks_range p nc vs : ncols p = nc -> Forall (in_range nc) vs -> (if chk then column_checks chk p vs else Ok tt) = Ok tt.
Proof.
  intros E F. destruct chk eqn:C; auto. rewrite <- C. induction F as [|v vs H F IH]; simpl; auto.
  rewrite (check_range E H). cbn [bind]. exact IH.
Qed.
Lemma rep_check a M i S : rep a M -> nth_error M i = Some S -> check_array chk a i = Ok tt.
Proof. intros (L & [I _] & F) N. destruct (f2_at F N) as (A & r & k & B & -> & <- & _). apply (row_check chk I). Qed.
Lemma remove_prep p M nc i S v : prep p (M, nc) -> nth_error M i = Some S -> in_range nc v ->
  oks (removeNonZero chk p i v)
    (fun r => prep (fst r) (put_at M i (diff_set S [v]), nc) /\ plus (flag (snd r)) (diff_set S [v]) S).
Proof.
  intros (R & E & G) N Hv. simpl in *. pose proof (ranged_at G N) as GS. unfold removeNonZero, with_rows.
  rewrite (rep_check R N). cbn [bind]. rewrite (check_range E Hv). cbn [bind].
  eapply oks_bind.
  - eapply (@rep_remove Z W fw chk true tw Z.ltb Z.eqb zorder); [exact R|exact N].
  - intros [a r] [R' Pl]. apply oks_ok. cbn [fst snd] in *. split; [|exact Pl]. split; [exact R'|]. split; auto.
    apply ranged_put; auto. intros x [Sx _]; auto.
Qed.
Lemma removes_prep p M nc i S vs : prep p (M, nc) -> nth_error M i = Some S -> increasing Z.ltb vs -> Forall (in_range nc) vs ->
  oks (removeNonZeros chk p i vs)
    (fun r => prep (fst r) (put_at M i (diff_set S vs), nc) /\ plus (snd r) (diff_set S vs) S).
Proof.
  intros (R & E & G) N Iv Hv. simpl in *. pose proof (ranged_at G N) as GS. unfold removeNonZeros, with_rows.
  rewrite (rep_check R N). cbn [bind]. rewrite (checks_range E Hv). cbn [bind].
  eapply oks_bind.
  - eapply (@rep_removes Z W fw chk true tw Z.ltb Z.eqb zorder); [exact R|exact N|apply increasing_strong; exact Iv].
  - intros [a r] [R' Pl]. apply oks_ok. cbn [fst snd] in *. split; [|exact Pl]. split; [exact R'|]. split; auto.
    apply ranged_put; auto. intros x [Sx _]; auto.
Qed.

Lemma card_ext (S S' : col_set) n : (forall x, S x <-> S' x) -> cardinal S n -> cardinal S' n.
Proof. intros E (l & N & H & Le). exists l. split; auto. split; auto. intros x. rewrite H. apply E. Qed.

Notation pstep := (pstep chk tw false kind cmax).
Notation prun := (prun chk tw false kind cmax).
Lemma pstep_ok c p st : prep p st -> pallowed c st ->
  match pat_step cmax c st with
  | Some st' => oks (pstep c p) (fun r => prep (fst r) st' /\ preturns c (fst st) (fst st') (snd r))
  | None => chk = true -> pstep c p = Abort
  end.
Proof.
  destruct st as [M nc]. intros PR Al. pose proof PR as (R & E & G). simpl in R, E, G.
  assert (Bad : forall i, chk = true -> nth_error M i = None -> check_array chk (rows p) i = Abort) by (intros; eapply bad_check; eauto).
  destruct c as [nr nc' cap|nc' caps|n|n|i n|i c| |c|i v|i vs|i v|i vs]; cbn [pat_step Sparsity.pstep]; unfold on_elem.
  - unfold sp_resize, check_numCols. destruct (cmax <? Z.of_nat nc' - 1)%Z; [reflexivity|]. cbn [error_if bind].
    apply quiet_ok; [|reflexivity]. eapply oks_bind.
    + apply okb_allt. apply rep_resize. exact R.
    + intros a Ra. apply oks_ok. split; [exact Ra|]. split; auto. simpl. unfold resized_to. intros S x I.
      apply in_app_iff in I. destruct I as [I|I]; [apply Al; exact I|]. apply repeat_spec in I. subst. intros [].
  - unfold sp_resizeFromRowCapacities, check_numCols. destruct (cmax <? Z.of_nat nc' - 1)%Z; [reflexivity|]. cbn [error_if bind].
    apply quiet_ok; [|reflexivity]. eapply oks_bind.
    + eapply rep_resizeFrom. exact R.
    + intros a Ra. apply oks_ok. split; [exact Ra|]. split; auto. simpl. intros S x I.
      apply in_map_iff in I. destruct I as (? & <- & _). intros [].
  - apply quiet_ok; [|reflexivity]. apply rows_ok; auto. apply rep_reserve. exact R.
  - apply quiet_ok; [|reflexivity]. apply rows_ok; auto. apply okb_allt. apply rep_reserveValues. exact R.
  - destruct (nth_error M i) as [S|] eqn:N.
    + apply quiet_ok; [|reflexivity]. rewrite (f2_same N). eapply reserveRow_ok; eauto.
    + intros C. unfold quiet, reserveRow, nonZeroCapacity, capacityOfArray. rewrite (Bad i C N). reflexivity.
  - destruct (nth_error M i) as [S|] eqn:N.
    + apply quiet_ok; [|reflexivity]. eapply setRow_ok; eauto.
    + intros C. unfold quiet, setRowCapacity, on_rows, setCapacityOfArray. rewrite (Bad i C N). reflexivity.
  - apply quiet_ok; [|reflexivity]. apply rows_ok; auto. apply rep_compress. exact R.
  - apply quiet_ok; [|reflexivity]. apply append_prep. exact PR.
  - destruct (nth_error M i) as [S|] eqn:N.
    + eapply oks_bind; [apply insert_prep; [exact PR|exact N|exact Al]|]. intros [p' r] [R' Pl]. apply oks_ok. cbn [fst snd] in *.
      assert (Ex : forall x, sum_set S [v] x <-> (x = v \/ S x)) by (intros x; unfold sum_set; simpl; intuition). split.
      * eapply prep_cast; [exact R'|]. apply put_ext. exact Ex.
      * simpl. intros S0 S' m m' N0 N' C C'. rewrite N in N0. injection N0 as <-. rewrite (nth_put _ N) in N'. injection N' as <-.
        apply Pl; auto. eapply card_ext; [|exact C']. intros x. symmetry. apply Ex.
    + intros C. unfold insertNonZero, with_rows, insertIntoSetImpl. rewrite (Bad i C N). reflexivity.
  - destruct (nth_error M i) as [S|] eqn:N.
    + destruct Al as [Al1 Al2]. eapply oks_mono; [apply inserts_prep; [exact PR|exact N|exact Al1|exact Al2]|]. intros [p' r] [R' Pl]. cbn [fst snd] in *.
      split; [exact R'|].
      simpl. intros S0 S' m m' N0 N' C C'. rewrite N in N0. injection N0 as <-. rewrite (nth_put _ N) in N'. injection N' as <-. apply Pl; auto.
    + intros C. unfold insertNonZeros, with_rows, insertsIntoSetImpl. rewrite (Bad i C N). reflexivity.
  - destruct (nth_error M i) as [S|] eqn:N.
    + eapply oks_bind; [apply remove_prep; [exact PR|exact N|exact Al]|]. intros [p' r] [R' Pl]. apply oks_ok. cbn [fst snd] in *.
      assert (Ex : forall x, diff_set S [v] x <-> (S x /\ x <> v)) by (intros x; unfold diff_set; simpl; intuition). split.
      * eapply prep_cast; [exact R'|]. apply put_ext. exact Ex.
      * simpl. intros S0 S' m m' N0 N' C C'. rewrite N in N0. injection N0 as <-. rewrite (nth_put _ N) in N'. injection N' as <-.
        apply Pl; auto. eapply card_ext; [|exact C']. intros x. symmetry. apply Ex.
    + intros C. unfold removeNonZero. rewrite (Bad i C N). reflexivity.
  - destruct (nth_error M i) as [S|] eqn:N.
    + destruct Al as [Al1 Al2]. eapply oks_mono; [apply removes_prep; [exact PR|exact N|exact Al1|exact Al2]|]. intros [p' r] [R' Pl]. cbn [fst snd] in *.
      split; [exact R'|].
      simpl. intros S0 S' m m' N0 N' C C'. rewrite N in N0. injection N0 as <-. rewrite (nth_put _ N) in N'. injection N' as <-. apply Pl; auto.
    + intros C. unfold removeNonZeros. rewrite (Bad i C N). reflexivity.
Qed.

Lemma prun_ok h : forall p st, prep p st -> pvalid cmax h st ->
  match pat_run cmax h st with
  | Some st' => oks (prun h p) (fun p' => prep p' st')
  | None => chk = true -> prun h p = Abort
  end.
Proof.
  induction h as [|c h IH]; intros p st R V; cbn [pat_run Sparsity.prun]; [apply oks_ok; exact R|].
  destruct V as [Al V]. pose proof (pstep_ok R Al) as St. destruct (pat_step cmax c st) as [st1|].
  - destruct St as ([p1 r] & E & R1 & _). rewrite E. cbn [bind]. apply IH; auto.
  - intros C. rewrite (St C). reflexivity.
Qed.

(** The total number of non-zeros. *)
Lemma total_ok p M nc ns : prep p (M, nc) -> Forall2 (fun S n => cardinal S n) M ns -> totalNonZeros chk p = Ok (list_sum ns).
Proof.
  intros (R & E & G) F. simpl in *. unfold totalNonZeros. rewrite (rep_num R).
  assert (H : forall l1 l2 M1 M2 acc, M = M1 ++ M2 -> Forall2 (fun S n => cardinal S n) M1 l1 -> Forall2 (fun S n => cardinal S n) M2 l2 ->
    for_up (length M2) (fun row nnz => n <- numNonZeros chk p row ;; Ok (nnz + n)) (length M1) acc = Ok (acc + list_sum l2)).
  { intros l1 l2. revert l1. induction l2 as [|n l2 IH]; intros l1 M1 M2 acc EM F1 F2; inversion F2; subst; simpl; [f_equal; lia|].
    rename x into S. assert (N : nth_error (M1 ++ S :: l) (length M1) = Some S) by (rewrite nth_error_app2, Nat.sub_diag by lia; reflexivity).
    unfold numNonZeros at 1. rewrite (@rep_size Z Z W idv fw chk true tw false Z.ltb Z.eqb zorder _ _ _ _ n R N) by auto. cbn [bind].
    specialize (IH (l1 ++ [n]) (M1 ++ [S]) l (acc + n)). rewrite app_length in IH. simpl in IH. rewrite IH.
    - f_equal. lia.
    - rewrite <- app_assoc. reflexivity.
    - apply Forall2_app; auto.
    - assumption. }
  apply (H [] ns [] M 0); auto.
Qed.
End Pattern.
