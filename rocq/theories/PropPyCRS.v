(** C69: pylvarray.CRSMatrix is a matrix of rows of entries guarded by its access level. *)
From Coq Require Import List Arith ZArith Lia Bool Sorting.Sorted.
From Verif Require Import Base BaseProofs Mem BufferManip Sorted SortedSpec SortedArraySpec AoA AoASpec AoS AoSSpec Sparsity SparsitySpec CRS CRSSpec PropCRS
  PyBase PyArraysSpec PyCRS PyCRSSpec PyCRSProofs.
From Verif Require MemProofs SortedProofs AoALayout AoAProofs SetsProofs SetsProofs2 AoSProofs CRSProofs2 CRSProofs3 CRSProofs4 PyArraysProofs.
Import ListNotations.
Set Implicit Arguments.
Unset Strict Implicit.

(** The lists of the specification are finite maps from columns to entries: [with_entries] keeps what is there,
    [without] takes columns away, [plus] adds to what is there. *)
Definition is_row (W : Type) (l : list (Z * W)) (S : row_map W) : Prop := increasing Z.ltb (map fst l) /\ forall e, In e l <-> S e.
Theorem C69_row_operations W (add : W -> W -> W) l es cs : increasing Z.ltb (map fst l) -> increasing Z.ltb (map fst es) ->
  is_row (with_entries l es) (fun e => In e l \/ (In e es /\ ~ In (fst e) (map fst l))) /\
  is_row (without l cs) (fun e => In e l /\ ~ In (fst e) cs) /\
  is_row (plus add l es) (fun e => exists w, In (fst e, w) l /\ snd e = fold_left add (contributions es (fst e)) w).
Proof.
  intros I J. apply pincr_keys in I. split; [|split]; split.
  - apply pincr_keys. apply with_entries_incr. exact I.
  - intros e. apply with_entries_in; [exact I|]. apply incr_nodup_z. exact J.
  - apply pincr_keys. apply filter_pincr. exact I.
  - intros e. apply without_in.
  - rewrite plus_keys. apply pincr_keys. exact I.
  - intros e. apply plus_in.
Qed.
Print Assumptions C69_row_operations.

Lemma driven_kok W (add : W -> W -> W) (zero : W) chk cmax nr nc cap h S nc1 M :
  (Z.of_nat nc - 1 <= cmax)%Z -> cvalid add zero true cmax h (repeat none nr, nc) ->
  mat_run add zero cmax h (repeat none nr, nc) = Some (S, nc1) -> Forall2 (@is_row W) M S ->
  exists p, cdriven add zero chk true cmax nr nc cap h = Ok p /\ kok p M nc1.
Proof.
  intros C V H F. pose proof (@cdriven_rep W add zero chk true cmax nr nc cap h C V) as D. rewrite H in D.
  destruct D as [(p & Ep & R)|[B _]]; [|discriminate B]. exists p. split; [exact Ep|]. split.
  - eapply CRSProofs4.mrep_cast; [exact R|]. clear -F. unfold members. induction F as [|l Q M S [_ E] F IH]; constructor; [|exact IH]. intros x. symmetry. apply E.
  - clear -F. induction F as [|l Q M S [E _] F IH]; constructor; [|exact IH]. apply pincr_keys. exact E.
Qed.

(** Every Python program over an exported CRSMatrix, whatever C++ did with it before, gets the results of the same
    program over the rows, if the columns it hands over are sorted, unique, within the matrix and, for add_to_row, in
    the row. C++ can go on with the matrix Python leaves. *)
Theorem C69_matrix W (add : W -> W -> W) (zero : W) chk safe convc conve ctype etype cmax imax host nr nc cap h S nc1 M level prog :
  (Z.of_nat nc - 1 <= cmax)%Z -> cvalid add zero true cmax h (repeat none nr, nc) ->
  mat_run add zero cmax h (repeat none nr, nc) = Some (S, nc1) -> Forall2 (@is_row W) M S ->
  k_valid add safe convc conve ctype etype cmax imax host prog M nc1 level ->
  exists p p' flags M' nc' level' results, cdriven add zero chk true cmax nr nc cap h = Ok p /\
    length flags = length prog /\
    mat_calls add safe convc conve ctype etype host flags prog M nc1 level = (M', nc', level', results) /\
    k_run chk add safe convc conve ctype etype cmax imax host prog (mkPC (Some p) level) = Ok (mkPC (Some p') level', results) /\
    cshows chk p' (map (fun l e => In e l) M', nc') /\ Forall (fun l => increasing Z.ltb (map fst l)) M' /\
    crs_dtor chk true BMalloc p' = Ok tt /\
    forall h' st', cvalid add zero true cmax h' (map (fun l e => In e l) M', nc') -> mat_run add zero cmax h' (map (fun l e => In e l) M', nc') = Some st' ->
      exists p'', crun chk true BMalloc cmax add zero h' p' = Ok p'' /\ cshows chk p'' st'.
Proof.
  intros C V H F K. destruct (driven_kok chk cap C V H F) as (p & Ep & R0).
  destruct (@k_run_ok W zero chk add safe convc conve ctype etype cmax imax host prog p M nc1 level K R0) as (p' & flags & Lf & Er & R').
  destruct (mat_calls add safe convc conve ctype etype host flags prog M nc1 level) as [[[M' nc'] level'] results] eqn:Ec. cbn [fst snd] in *.
  exists p, p', flags, M', nc', level', results. split; [exact Ep|]. split; [exact Lf|]. split; [exact Ec|]. split; [exact Er|].
  destruct R' as [R' I']. split; [exact (mrep_shows chk R')|]. split.
  { eapply Forall_impl; [|exact I']. intros l Hl. apply pincr_keys. exact Hl. }
  split; [exact (CRSProofs4.mdtor chk R')|]. intros h' st' V' H'.
  pose proof (@CRSProofs4.crun_ok W chk true add zero cmax h' p' _ R' V') as G. match type of G with match ?x with _ => _ end => replace x with (Some st') in G by (symmetry; exact H') end.
  destruct G as [(p'' & E'' & R'')|[B _]]; [|discriminate B]. exists p''. split; [exact E''|exact (mrep_shows chk R'')].
Qed.
Print Assumptions C69_matrix.

(** to_scipy after compress gives the three arrays of the compressed row format. *)
Theorem C69_compress_to_scipy W (add : W -> W -> W) (zero : W) chk safe convc conve ctype etype cmax imax host nr nc cap h S nc1 M level :
  (Z.of_nat nc - 1 <= cmax)%Z -> cvalid add zero true cmax h (repeat none nr, nc) ->
  mat_run add zero cmax h (repeat none nr, nc) = Some (S, nc1) -> Forall2 (@is_row W) M S -> M <> [] -> (RESIZEABLE <= level)%Z ->
  exists p p', cdriven add zero chk true cmax nr nc cap h = Ok p /\
    k_run chk add safe convc conve ctype etype cmax imax host [KCompress; KToSciPy] (mkPC (Some p) level) =
    Ok (mkPC (Some p') level, [KNone; KCsr true (map snd (concat M)) (map fst (concat M)) (starts 0 M) (length M, nc1)]).
Proof.
  intros C V H F Ne L. destruct (driven_kok chk cap C V H F) as (p & Ep & R0).
  destruct (compress_ok chk R0) as (p' & Ec & R' & Cm). exists p, p'. split; [exact Ep|]. cbn [k_run k_step]. unfold k_compress, resizing.
  cbn [pc_matrix pc_level]. replace (level <? RESIZEABLE)%Z with false by (symmetry; apply Z.ltb_ge; exact L). rewrite Ec. cbn [bind].
  unfold with_matrix. cbn [pc_level]. rewrite (toSciPy_ok level R' Cm). cbn [bind negb]. replace (MODIFIABLE <=? level)%Z with true
    by (symmetry; apply Z.leb_le; unfold MODIFIABLE, RESIZEABLE in *; lia). destruct M; [destruct Ne; reflexivity|reflexivity].
Qed.
Print Assumptions C69_compress_to_scipy.
(** They describe the matrix: row [i] is at the positions from indptr[ i ] to indptr[ i + 1 ]. *)
Theorem C69_csr W (M : list (list (Z * W))) i row : nth_error M i = Some row ->
  exists from to, nth_error (starts 0 M) i = Some from /\ nth_error (starts 0 M) (i + 1) = Some to /\ from <= to <= length (concat M) /\
    slice (map fst (concat M)) from to = map fst row /\ slice (map snd (concat M)) from to = map snd row.
Proof.
  intros N. assert (G : forall n, exists a, nth_error (starts n M) i = Some (n + a) /\ nth_error (starts n M) (i + 1) = Some (n + a + length row) /\
     a + length row <= length (concat M) /\ forall X (g : Z * W -> X), slice (map g (concat M)) a (a + length row) = map g row).
  { revert i N. induction M as [|r M IH]; intros i N n; [destruct i; discriminate|]. destruct i as [|i].
    - injection N as ->. exists 0. cbn [starts nth_error]. rewrite Nat.add_0_r. split; [reflexivity|]. split; [destruct M; reflexivity|].
      cbn [concat]. rewrite app_length. split; [lia|]. intros X g. unfold slice. simpl. rewrite Nat.sub_0_r, map_app.
      replace (length row) with (length (map g row)) by apply map_length. rewrite firstn_app, firstn_all, Nat.sub_diag. simpl. apply app_nil_r.
    - cbn [nth_error] in N. destruct (IH i N (n + length r)) as (a & H1 & H2 & H3 & H4). exists (length r + a). cbn [starts nth_error].
      replace (Datatypes.S i + 1) with (Datatypes.S (i + 1)) by lia. cbn [nth_error]. split; [rewrite H1; f_equal; lia|]. split; [rewrite H2; f_equal; lia|].
      cbn [concat]. rewrite app_length. split; [lia|]. intros X g. rewrite <- (H4 X g). unfold slice. rewrite map_app.
      replace (length r + a + length row - (length r + a)) with (length row) by lia. replace (a + length row - a) with (length row) by lia. f_equal.
      rewrite skipn_app, skipn_all2 by (rewrite map_length; lia). rewrite map_length. simpl. f_equal. lia. }
  destruct (G 0) as (a & H1 & H2 & H3 & H4). exists a, (a + length row). split; [exact H1|]. split; [exact H2|]. split; [lia|]. split; apply H4.
Qed.
Print Assumptions C69_csr.

(** Below RESIZEABLE nothing that does not raise the level changes which entries there are, and with READ_ONLY
    nothing changes. *)
Definition k_raises (W : Type) (c : kcall W) : bool := match c with KSetLevel l _ => (RESIZEABLE <=? l)%Z | _ => false end.
Definition k_unlocks (W : Type) (c : kcall W) : bool := match c with KSetLevel l _ => negb (l =? READ_ONLY)%Z | _ => false end.
Lemma change_keys W (M : list (list (Z * W))) k j w : map (map fst) (change M k (fun r => set_nth r j w)) = map (map fst) M \/ length M <= k.
Proof.
  destruct (Nat.lt_ge_cases k (length M)) as [L|L]; [left|auto]. unfold change. rewrite map_app. cbn [map].
  assert (E : map fst (set_nth (nth k M []) j w) = map fst (nth k M [])).
  { unfold set_nth. destruct (nth_error (nth k M []) j) as [x|] eqn:N; [|reflexivity].
    apply nth_error_split in N. destruct N as (f & g & -> & <-). rewrite map_app. cbn [map fst]. rewrite firstn_app, Nat.sub_diag, firstn_all. simpl.
    rewrite app_nil_r, map_app. f_equal. simpl. f_equal. rewrite skipn_app, skipn_all2 by lia. replace (length f + 1 - length f) with 1 by lia. reflexivity. }
  rewrite E. change (map fst (nth k M [])) with (map fst (nth k M [])). rewrite <- firstn_map, <- skipn_map, <- (map_nth (map fst)). cbn [map].
  rewrite <- (firstn_skipn k (map (map fst) M)) at 4. f_equal.
  assert (Lk : k < length (map (map fst) M)) by (rewrite map_length; exact L). clear -Lk. revert k Lk. induction (map (map fst) M) as [|x l IH]; intros k Lk; [simpl in Lk; lia|].
  destruct k; simpl in *; [reflexivity|]. apply IH. lia.
Qed.
Theorem C69_structure_protected W (add : W -> W -> W) safe convc conve ctype etype host prog : forall flags M nc level,
  (level < RESIZEABLE)%Z -> existsb (@k_raises W) prog = false ->
  let x := mat_calls add safe convc conve ctype etype host flags prog M nc level in
  map (map fst) (fst (fst (fst x))) = map (map fst) M /\ snd (fst (fst x)) = nc.
Proof.
  induction prog as [|c p IH]; intros flags M nc level L N; [destruct flags; auto|]. destruct flags as [|b flags]; [auto|]. simpl in N. apply orb_false_iff in N. destruct N as [N N'].
  assert (B : let x := mat_call add safe convc conve ctype etype host b c M nc level in
     map (map fst) (fst (fst (fst x))) = map (map fst) M /\ snd (fst (fst x)) = nc /\ (snd (fst x) < RESIZEABLE)%Z).
  { assert (E : (level <? RESIZEABLE)%Z = true) by (apply Z.ltb_lt; exact L).
    destruct c; cbn [mat_call]; rewrite ?E; repeat match goal with |- context [ match ?x with _ => _ end ] => let X := fresh "X" in destruct x eqn:X end; cbn [fst snd]; auto.
    - split; [|auto]. match goal with |- map _ (change M ?k _) = _ => destruct (change_keys M k n0 w) as [H|H]; [exact H|] end.
      match goal with X : plain _ _ = Some _ |- _ => apply PyArraysProofs.plain_some in X; lia end.
    - cbn [k_raises] in N. apply Z.leb_gt in N. auto. }
  cbn [mat_calls]. destruct (mat_call add safe convc conve ctype etype host b c M nc level) as [[[M1 n1] v1] r]. cbn [fst snd] in B. destruct B as (B1 & -> & B3).
  specialize (IH flags M1 nc v1 B3 N'). destruct (mat_calls add safe convc conve ctype etype host flags p M1 nc v1) as [[[M2 n2] v2] rs]. cbn [fst snd] in *. rewrite <- B1. exact IH.
Qed.
Print Assumptions C69_structure_protected.
Theorem C69_read_only W (add : W -> W -> W) safe convc conve ctype etype host prog : forall flags M nc,
  existsb (@k_unlocks W) prog = false ->
  fst (mat_calls add safe convc conve ctype etype host flags prog M nc READ_ONLY) = (M, nc, READ_ONLY).
Proof.
  induction prog as [|c p IH]; intros flags M nc N; [destruct flags; reflexivity|]. destruct flags as [|b flags]; [reflexivity|]. simpl in N. apply orb_false_iff in N. destruct N as [N N'].
  assert (B : fst (mat_call add safe convc conve ctype etype host b c M nc READ_ONLY) = (M, nc, READ_ONLY)).
  { destruct c; cbn [mat_call]; change (READ_ONLY <? RESIZEABLE)%Z with true; change (READ_ONLY =? 0)%Z with true; cbn [negb];
      repeat match goal with |- context [ match ?x with _ => _ end ] => destruct x end; cbn [fst]; try reflexivity.
    cbn [k_unlocks] in N. apply negb_false_iff, Z.eqb_eq in N. subst. reflexivity. }
  cbn [mat_calls]. destruct (mat_call add safe convc conve ctype etype host b c M nc READ_ONLY) as [[[M1 n1] v1] r]. cbn [fst] in B. injection B as -> -> ->.
  specialize (IH flags M nc N'). destruct (mat_calls add safe convc conve ctype etype host flags p M nc READ_ONLY) as [[[M2 n2] v2] rs]. exact IH.
Qed.
Print Assumptions C69_read_only.

(** Columns of get_columns cannot be written, at any level. *)
Theorem C69_columns_protected W chk (add : W -> W -> W) safe convc conve ctype etype cmax imax host row j c s s' r :
  k_step chk add safe convc conve ctype etype cmax imax host (KSetColumn row j c) s = Ok (s', r) -> s' = s /\ exists e, r = KRaise e.
Proof.
  cbn [k_step]. unfold k_setColumn, kraise. destruct (k_getColumns chk s row) as [[s0 r0]| |]; cbn [bind]; [|discriminate|discriminate].
  destruct r0; try (intros [= <- <-]; eauto). destruct writeable; intros [= <- <-]; eauto.
Qed.
Print Assumptions C69_columns_protected.

(** A CRSMatrix made in Python, without a matrix of C++, only raises RuntimeError. *)
Theorem C69_uninitialised W chk (add : W -> W -> W) safe convc conve ctype etype cmax imax host level c :
  k_step chk add safe convc conve ctype etype cmax imax host c (mkPC (@None (pattern W)) level) = Ok (mkPC None level, KRaise ERuntime).
Proof. destruct c; try reflexivity; match goal with x : kcols |- _ => destruct x; reflexivity end. Qed.
Print Assumptions C69_uninitialised.

Lemma find_next W chk (p : pattern W) M nc i f c c' w g : kok p M nc -> nth_error M i = Some (f ++ (c', w) :: g) ->
  Forall (fun e => (fst e < c)%Z) f -> (c < c')%Z ->
  exists n base, numNonZeros chk p i = Ok n /\ getSetValues chk (rows p) i = Ok base /\
    find Z.ltb (vals (rows p)) base n c = Ok (length f) /\ find Z.ltb (vals (rows p)) base n c' = Ok (length f).
Proof.
  intros R N Fl Lt. pose proof (row_incr (proj2 R) (proj1 (nth_error_Some M i) ltac:(rewrite N; discriminate))) as I.
  rewrite (nth_error_nth _ _ [] N) in I. destruct (kok_rows R) as (L & (Ia & Lv & _) & E).
  rewrite <- E, nth_error_map in N. destruct (nth_error L i) as [[r k]|] eqn:NL; [|discriminate]. cbn in N. injection N as ->.
  apply nth_error_split in NL. destruct NL as (A & B & -> & <-). exists (length (f ++ (c', w) :: g)), (length (AoALayout.flat fst A)).
  split; [unfold numNonZeros; apply (SetsProofs.row_size chk Ia)|]. split; [apply (SetsProofs.row_values fst chk Ia)|].
  destruct (SetsProofs.lay_row Lv) as [q Mm]. rewrite map_app in Mm. cbn [map fst] in Mm.
  destruct (CRSProofs3.pincr_split I) as [Fl' Gr].
  assert (G : forall x, Forall (fun e : Z * W => (fst e <? x)%Z = true) f -> (x <= c')%Z ->
     find Z.ltb (vals (rows p)) (length (AoALayout.flat fst A)) (length (f ++ (c', w) :: g)) x = Ok (length f)).
  { intros x Fx Lx. rewrite <- (map_length fst f). eapply (SortedProofs.find_ok (triv := true)) with (p := AoALayout.flat fst A) (c := c' :: map fst g).
    - exact Mm.
    - rewrite Forall_map. exact Fx.
    - constructor; [apply Z.ltb_ge; exact Lx|]. rewrite Forall_map. eapply Forall_impl; [|exact Gr]. intros e He. apply Z.ltb_lt in He. apply Z.ltb_ge. cbn in *. lia.
    - reflexivity.
    - rewrite app_length, map_length. simpl. rewrite map_length. lia. }
  split; apply G.
  - eapply Forall_impl; [|exact Fl]. intros e He. apply Z.ltb_lt. exact He.
  - lia.
  - exact Fl'.
  - lia.
Qed.
(** add_to_row does not notice that a column is not in the row: the value goes to the entry of the next larger column. *)
Theorem C69_add_absent_refuted W (add : W -> W -> W) (zero : W) chk safe convc conve ctype etype cmax imax host nr nc cap h S nc1 M level i f c c' w g v :
  (Z.of_nat nc - 1 <= cmax)%Z -> cvalid add zero true cmax h (repeat none nr, nc) ->
  mat_run add zero cmax h (repeat none nr, nc) = Some (S, nc1) -> Forall2 (@is_row W) M S -> (RESIZEABLE <= level)%Z ->
  in_ll (Z.of_nat i) = true -> nth_error M i = Some (f ++ (c', w) :: g) -> Forall (fun e => (fst e < c)%Z) f -> (c < c')%Z ->
  exists p p', cdriven add zero chk true cmax nr nc cap h = Ok p /\
    k_run chk add safe convc conve ctype etype cmax imax host
      [KAdd (Z.of_nat i) (KObj (Some (mkN 1 true ctype [c]))) (Some (mkN 1 true etype [v]))] (mkPC (Some p) level) = Ok (mkPC (Some p') level, [KNone]) /\
    cshows chk p' (put_at (map (fun l e => In e l) M) i (fun e => In e (f ++ (c', add w v) :: g)), nc1).
Proof.
  intros C V H F Lv Il N Fl Lt. destruct (driven_kok chk cap C V H F) as (p & Ep & R).
  assert (Li : i < length M) by (apply nth_error_Some; rewrite N; discriminate). pose proof (nth_error_nth _ _ [] N) as Nn.
  destruct (find_next chk R N Fl Lt) as (n & base & E1 & E2 & E3 & E4).
  assert (Same : addUnsorted chk true add p i [(c, v)] = addUnsorted chk true add p i [(c', v)]).
  { unfold addUnsorted. rewrite E1. cbn [bind]. rewrite E2. cbn [bind]. destruct (getEntries chk (rows p) i); [|reflexivity|reflexivity]. cbn [bind fold_left fst snd].
    rewrite E3, E4. reflexivity. }
  assert (Ps : plus add (f ++ (c', w) :: g) [(c', v)] = f ++ (c', add w v) :: g).
  { pose proof (row_incr (proj2 R) Li) as I. rewrite Nn in I. destruct (CRSProofs3.pincr_split I) as [Fl' Gr]. unfold plus. rewrite map_app. cbn [map fst snd].
    unfold contributions at 2. cbn [filter fst snd]. rewrite Z.eqb_refl. cbn [map snd fold_left].
    assert (Id : forall l : list (Z * W), Forall (fun e => fst e <> c') l -> map (fun e => (fst e, fold_left add (contributions [(c', v)] (fst e)) (snd e))) l = l).
    { induction 1 as [|e l He Hl IH]; [reflexivity|]. cbn [map]. rewrite IH. unfold contributions. cbn [filter fst]. destruct (Z.eqb_spec c' (fst e)); [congruence|]. destruct e; reflexivity. }
    rewrite (Id f), (Id g); [reflexivity| |].
    - eapply Forall_impl; [|exact Gr]. intros e He. apply Z.ltb_lt in He. cbn in He. lia.
    - eapply Forall_impl; [|exact Fl']. intros e He. apply Z.ltb_lt in He. cbn in He. lia. }
  destruct (@add_row W zero chk add safe convc conve ctype cmax p M nc1 i [(c', v)] R Li) as (p' & Ea & R').
  { rewrite Nn. constructor; [|constructor]. cbn [fst]. rewrite map_app. apply in_or_app. right. left. reflexivity. }
  exists p, p'. split; [exact Ep|]. split.
  - cbn [k_run k_step]. unfold with_columns, k_arg. cbn [bind]. unfold k_add, resizing. cbn [pc_matrix pc_level].
    replace (level <? RESIZEABLE)%Z with false by (symmetry; apply Z.ltb_ge; exact Lv). rewrite Il. cbn [negb].
    unfold parse_both, parseNumPyArray. cbn [n_dims n_carray n_type n_vals negb Nat.ltb Nat.leb]. rewrite !Nat.eqb_refl.
    assert (Nr : no_row p (Z.of_nat i) = false) by (unfold no_row; rewrite (kok_num R); apply PyArraysProofs.in_range; lia). rewrite Nr, Nat2Z.id. cbn [combine].
    rewrite Same, Ea. reflexivity.
  - rewrite Nn, Ps in R'. destruct R' as [R' _]. rewrite members_put in R'. exact (mrep_shows chk R').
Qed.
Print Assumptions C69_add_absent_refuted.

(** It reads after the columns when there are fewer of them than values, although insert_nonzeros checks this. *)
Theorem C69_add_lengths_refuted W (add : W -> W -> W) (zero : W) chk safe convc conve ctype etype cmax imax host nr nc cap h S nc1 M level i cs ws :
  (Z.of_nat nc - 1 <= cmax)%Z -> cvalid add zero true cmax h (repeat none nr, nc) ->
  mat_run add zero cmax h (repeat none nr, nc) = Some (S, nc1) -> Forall2 (@is_row W) M S -> (RESIZEABLE <= level)%Z ->
  in_ll (Z.of_nat i) = true -> i < length M -> Forall (fun c => In c (map fst (nth i M []))) cs -> length cs < length ws ->
  exists p, cdriven add zero chk true cmax nr nc cap h = Ok p /\
    k_run chk add safe convc conve ctype etype cmax imax host
      [KAdd (Z.of_nat i) (KObj (Some (mkN 1 true ctype cs))) (Some (mkN 1 true etype ws))] (mkPC (Some p) level) = Fault FOob /\
    k_run chk add safe convc conve ctype etype cmax imax host
      [KInsert (Z.of_nat i) (KObj (Some (mkN 1 true ctype cs))) (Some (mkN 1 true etype ws))] (mkPC (Some p) level) = Ok (mkPC (Some p) level, [KRaise ERuntime]).
Proof.
  intros C V H F Lv Il Li Fc Ln. destruct (driven_kok chk cap C V H F) as (p & Ep & R). exists p. split; [exact Ep|].
  assert (Nr : no_row p (Z.of_nat i) = false) by (unfold no_row; rewrite (kok_num R); apply PyArraysProofs.in_range; lia).
  assert (Ns : (level <? RESIZEABLE)%Z = false) by (apply Z.ltb_ge; exact Lv).
  split; cbn [k_run k_step]; unfold with_columns, k_arg; cbn [bind]; unfold k_add, k_insert, resizing; cbn [pc_matrix pc_level]; rewrite Ns, Il; cbn [negb];
    unfold parse_both, parseNumPyArray; cbn [n_dims n_carray n_type n_vals negb Nat.ltb Nat.leb]; rewrite !Nat.eqb_refl.
  - rewrite Nr, Nat2Z.id. destruct (@add_row W zero chk add safe convc conve ctype cmax p M nc1 i (combine cs ws) R Li) as (p' & Ea & R').
    { apply Forall_forall. intros c Hc. rewrite Forall_forall in Fc. apply Fc. apply in_map_iff in Hc. destruct Hc as ([a b] & <- & Hc). eapply in_combine_l. exact Hc. }
    rewrite Ea. cbn [bind]. change (match length ws with 0 => false | Datatypes.S m' => length cs <=? m' end) with (length cs <? length ws).
    replace (length cs <? length ws) with true by (symmetry; apply Nat.ltb_lt; exact Ln). reflexivity.
  - replace (length cs =? length ws) with false by (symmetry; apply Nat.eqb_neq; lia). reflexivity.
Qed.
Print Assumptions C69_add_lengths_refuted.

(** Every level but READ_ONLY lets Python write entries, and set_access_level takes every int: -1 is below MODIFIABLE,
    yet the view of get_entries is writeable, unlike that of to_scipy. *)
Theorem C69_negative_level_refuted W (add : W -> W -> W) (zero : W) chk safe convc conve ctype etype cmax imax host nr nc cap h S nc1 M level i j w old :
  (Z.of_nat nc - 1 <= cmax)%Z -> cvalid add zero true cmax h (repeat none nr, nc) ->
  mat_run add zero cmax h (repeat none nr, nc) = Some (S, nc1) -> Forall2 (@is_row W) M S -> (level < READ_ONLY)%Z ->
  in_int level = true -> in_int host = true -> in_ll (Z.of_nat i) = true -> in_ll (Z.of_nat j) = true ->
  nth_error (nth i M []) j = Some old ->
  exists p p', cdriven add zero chk true cmax nr nc cap h = Ok p /\
    k_run chk add safe convc conve ctype etype cmax imax host [KSetLevel level host; KGetEntries (Z.of_nat i); KSetEntry (Z.of_nat i) (Z.of_nat j) w]
      (mkPC (Some p) READ_ONLY) = Ok (mkPC (Some p') level, [KNone; KEntries true (map snd (nth i M [])); KNone]) /\
    entry chk p' i j = Ok w.
Proof.
  intros C V H F Lv Hl Hh Hi Hj N. destruct (driven_kok chk cap C V H F) as (p & Ep & R).
  assert (Lj : j < length (nth i M [])) by (apply nth_error_Some; rewrite N; discriminate).
  assert (Li : i < length M). { destruct (Nat.lt_ge_cases i (length M)) as [L|L]; [exact L|]. rewrite (nth_overflow _ _ L) in Lj. simpl in Lj. lia. }
  set (prog := [KSetLevel level host; KGetEntries (Z.of_nat i); KSetEntry (Z.of_nat i) (Z.of_nat j) w]).
  assert (K : k_valid add safe convc conve ctype etype cmax imax host prog M nc1 READ_ONLY).
  { cbn. repeat (split; [exact I|]). repeat match goal with |- context [ match ?x with _ => _ end ] => destruct x end; repeat split; exact I. }
  destruct (@k_run_ok W zero chk add safe convc conve ctype etype cmax imax host prog p M nc1 READ_ONLY K R) as (p' & flags & Lf & Er & R').
  destruct flags as [|b1 [|b2 [|b3 [|? ?]]]]; try discriminate Lf.
  assert (Pl : plain (length M) (Z.of_nat i) = Some i).
  { unfold plain. replace (0 <=? Z.of_nat i)%Z with true by (symmetry; apply Z.leb_le; lia). replace (Z.of_nat i <? Z.of_nat (length M))%Z with true by (symmetry; apply Z.ltb_lt; lia). cbn [andb]. rewrite Nat2Z.id. reflexivity. }
  assert (Nm : norm (length (nth i M [])) (Z.of_nat j) = Some j).
  { unfold norm. destruct (Z.ltb_spec (Z.of_nat j) 0); [lia|]. replace (0 <=? Z.of_nat j)%Z with true by (symmetry; apply Z.leb_le; lia).
    replace (Z.of_nat j <? Z.of_nat (length (nth i M [])))%Z with true by (symmetry; apply Z.ltb_lt; lia). cbn [andb]. rewrite Nat2Z.id, Hj. reflexivity. }
  assert (Z0 : (level =? 0)%Z = false) by (apply Z.eqb_neq; unfold READ_ONLY in Lv; lia).
  assert (Ec : mat_calls add safe convc conve ctype etype host [b1; b2; b3] prog M nc1 READ_ONLY =
    (change M i (fun r => set_nth r j w), nc1, level, [KNone; KEntries true (map snd (nth i M [])); KNone])).
  { unfold prog. cbn [mat_calls mat_call]. rewrite Hl, Hh. cbn [andb negb]. rewrite Z.eqb_refl. cbn [negb]. rewrite Hi. cbn [negb]. rewrite Pl, Pl, Z0, Nm. reflexivity. }
  rewrite Ec in Er, R'. cbn [fst snd] in Er, R'. exists p, p'. split; [exact Ep|]. split; [exact Er|].
  assert (Lc : i < length (change M i (fun r => set_nth r j w))).
  { unfold change. rewrite app_length. simpl. rewrite firstn_length. lia. }
  destruct (@kok_row W chk p' _ nc1 i R' Lc) as [_ G]. apply (proj2 (G j (fst old) w ltac:(
    unfold change; rewrite app_nth2 by (rewrite firstn_length; lia); rewrite firstn_length, Nat.min_l, Nat.sub_diag by lia; cbn [nth];
    unfold set_nth; rewrite N, nth_error_app2 by (rewrite firstn_length; lia); rewrite firstn_length, Nat.min_l, Nat.sub_diag by lia; reflexivity))).
Qed.
Print Assumptions C69_negative_level_refuted.

(** resize ends the process when INDEX_TYPE cannot hold a dimension or COL_TYPE cannot hold the columns; no exception is
    raised. *)
Theorem C69_resize_aborts W (add : W -> W -> W) chk safe convc conve ctype etype cmax imax host p level nr nc cap :
  (RESIZEABLE <= level)%Z -> in_ll nr = true -> in_ll nc = true -> in_ll cap = true -> (0 <= nr)%Z -> (0 <= nc)%Z -> (0 <= cap)%Z ->
  (imax < nr \/ imax < nc \/ imax < cap \/ cmax < nc - 1)%Z ->
  k_run (W := W) chk add safe convc conve ctype etype cmax imax host [KResize nr nc cap] (mkPC (Some p) level) = Abort.
Proof.
  intros Lv I1 I2 I3 P1 P2 P3 B. cbn [k_run k_step]. unfold k_resize, resizing. cbn [pc_matrix pc_level].
  replace (level <? RESIZEABLE)%Z with false by (symmetry; apply Z.ltb_ge; exact Lv). rewrite I1, I2, I3. cbn [andb negb].
  rewrite (proj2 (Z.ltb_ge _ _) P1), (proj2 (Z.ltb_ge _ _) P2), (proj2 (Z.ltb_ge _ _) P3). cbn [orb].
  destruct (Z.ltb_spec imax nr); [reflexivity|]. destruct (Z.ltb_spec imax nc); [reflexivity|]. destruct (Z.ltb_spec imax cap); [reflexivity|]. cbn [orb].
  assert (Bc : (cmax < nc - 1)%Z) by lia. unfold sp_resize, check_numCols, error_if. rewrite Z2Nat.id by lia. rewrite (proj2 (Z.ltb_lt _ _) Bc). reflexivity.
Qed.
Print Assumptions C69_resize_aborts.

(** What else goes wrong: columns outside the matrix and out of order are inserted, and resize keeps columns that are cut
    off. *)
Definition on_matrix (chk : bool) (nr nc cap : nat) (h : list (ccall Z)) (level : Z) (prog : list (kcall Z)) : outcome (list (kres Z)) :=
  p <- cdriven Z.add 0%Z chk true 100%Z nr nc cap h ;;
  '(_, rs) <- k_run chk Z.add Nat.eqb (fun _ _ v => v) (fun _ _ v => v) 5 6 100%Z 1000%Z 0%Z prog (mkPC (Some p) level) ;; Ok rs.
Definition zcols (l : list Z) : kcols := KObj (Some (mkN 1 true 5 l)).
Definition zvals (l : list Z) : option (npy Z) := Some (mkN 1 true 6 l).
Theorem C69_unchecked_columns_refuted :
  on_matrix true 2 3 3 [] RESIZEABLE [KInsert 0 (zcols [-1; 7]) (zvals [10; 20]); KNumColumns; KGetColumns 0; KGetEntries 0]%Z
    = Ok [KInt 2; KInt 3; KColumns false [-1; 7]; KEntries true [10; 20]]%Z /\
  on_matrix true 2 3 3 [] RESIZEABLE [KInsert 0 (zcols [2; 0]) (zvals [10; 20]); KGetColumns 0; KRemove 0 (zcols [0]); KGetColumns 0]%Z
    = Ok [KInt 2; KColumns false [2; 0]; KInt 0; KColumns false [2; 0]]%Z /\
  on_matrix true 2 3 3 [CInsert 0 2%Z 10%Z] RESIZEABLE [KResize 2 1 0; KNumColumns; KGetColumns 0]%Z = Ok [KNone; KInt 1; KColumns false [2]]%Z.
Proof. repeat split; vm_compute; reflexivity. Qed.
Print Assumptions C69_unchecked_columns_refuted.

Example C69_case :
  on_matrix true 2 4 1 [CInsert 0 2%Z 10%Z; CInserts 1 [(0, 1); (3, 4)]%Z] READ_ONLY
    [KNumRows; KGetColumns 1; KGetEntries 1; KSetEntry 1 0 9; KInsert 0 (zcols [1]) (zvals [7]); KSetLevel 1 0; KSetEntry 1 (-1) 9; KSetColumn 1 0 2;
     KResize 3 4 0; KSetLevel 2 5; KSetLevel 2 0; KInsert 0 (zcols [1; 2; 3]) (zvals [7; 8; 9]); KAdd 0 (zcols [3; 1; 3]) (zvals [100; 200; 300]);
     KGetEntries 0; KRemove 0 (zcols [0; 2]); KInsert 0 (zcols [1; 2]) (zvals [7]); KInsert 0 (KOwn 1) (zvals [7; 7]); KToSciPy; KCompress; KToSciPy; KGetColumns 2]%Z
  = Ok [KInt 2; KColumns false [0; 3]; KEntries false [1; 4]; KRaise EValue; KRaise ERuntime; KNone; KNone; KRaise EValue;
     KRaise ERuntime; KRaise EValue; KNone; KInt 2; KNone;
     KEntries true [207; 10; 409]; KInt 1; KRaise ERuntime; KRaise ERuntime; KRaise ERuntime; KNone;
     KCsr true [207; 409; 1; 9] [1; 3; 0; 3] [0; 2; 4]%nat (2, 4)%nat; KRaise ERuntime]%Z.
Proof. vm_compute. reflexivity. Qed.
