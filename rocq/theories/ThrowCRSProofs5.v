(** What an exception leaves of a CRSMatrix: assignments, additions, calls and programs. *)
From Coq Require Import List Arith ZArith Lia Bool Sorting.Sorted.
From Verif Require Import Base BaseProofs Mem MemProofs ArrayManipProofs BufferManip BufferManipProofs
  Sorted SortedSpec SortedProofs SortedProofs2 SortedProofs3 SortedArray SortedArraySpec AoA AoASpec AoALayout AoAProofs AoAProofs2 AoAProofs4
  AoS AoSSpec SetsProofs SetsProofs2 AoSProofs Sparsity SparsitySpec SparsityProofs CRS CRSSpec CRSProofs CRSProofs2 CRSProofs3.
From Verif Require Import Throw ThrowProofs ThrowAoASpec ThrowAoAProofs ThrowAoAProofs5 ThrowSorted ThrowSortedSpec ThrowSortedProofs2 ThrowSets ThrowSetsProofs
  ThrowCRS ThrowCRSSpec ThrowCRSProofs ThrowCRSProofs2 ThrowCRSProofs3 ThrowCRSProofs4.
From Verif Require ArrayManip CRSProofs4 ThrowSetsProofs3.
Import ListNotations.
Set Implicit Arguments.
Unset Strict Implicit.

Section Calls.
Variable W : Type.
Variable chk : bool.
Variable cmax : Z.
Variable add : W -> W -> W.
Variable zero : W.
Notation P := (Z * W)%type.
Notation fv := (@fst Z W).
Notation fw := (@snd Z W).
Notation aoa := (aoa Z W).
Notation X := (aoa * nat)%type.
Notation matrix := (pattern W).
Notation row := (list P * nat)%type.
Notation rows_t := (list row).
Notation line := (list P).
Notation aok := (@aok P Z W fv fw true false true).
Notation iok := (@iok P Z W).
Notation pincr l := (StronglySorted (fun x y => (fst x <? fst y)%Z = true) l).
Notation LZs := (map (@LV Z)).
Notation LWs := (map (@LV W)).
Notation lrep := (@lrep W).
Notation left_c := (@left_c W chk).
Notation missing A l := (filter (fun w => negb (present Z.eqb fv A (fst w))) l).
Notation cstep := (cstep chk false BMalloc cmax add zero).
Notation x_cstep := (x_cstep chk false cmax add zero).
Notation eqv := (Forall2 (fun S S' : row_map W => forall x, S x <-> S' x)).
Notation pins := (pinsert Z.ltb Z.eqb (@fst Z W)).
Implicit Types a : aoa.
Implicit Types A B L : rows_t.
Implicit Types M : list (list P).

(** ** setValues *)
Lemma x_assigns_t v m : forall n b p (xs : list W) s i0 i, mem false b (p ++ LWs xs ++ s) -> length xs = m -> i0 + i = length p ->
  xspec (xfor_up m (fun i n b => x_assign false n b (i0 + i) v) i n b)
    (fun n' b' => n = n' + m /\ mem false b' (p ++ LWs (repeat v m) ++ s))
    (fun w b' => w = Element /\ n < m /\ mem false b' (p ++ LWs (repeat v n ++ skipn n xs) ++ s)).
Proof.
  induction m as [|m IH]; intros n b p xs s i0 i M L E; destruct xs as [|x xs]; try discriminate; cbn [xfor_up].
  - cbn [xspec]. split; [lia|exact M].
  - unfold x_assign at 1. destruct n as [|n].
    + cbn [xbind xspec]. split; [reflexivity|]. split; [lia|]. exact M.
    + destruct (@assign_ok W false b p (LV x) (LWs xs ++ s) (i0 + i) v M E) as (b' & -> & M'); [discriminate|]. cbn [xlift xbind].
      eapply xspec_mono; [apply (IH n b' (p ++ [LV v]) xs s i0 (i + 1))| |].
      * eapply mem_cast; [exact M'|]. lapp. auto.
      * simpl in L. lia.
      * len.
      * intros n' b2 (-> & M2). split; [lia|]. eapply mem_cast; [exact M2|]. cbn [repeat map]. lapp. auto.
      * intros w b2 (-> & Hn & M2). split; [reflexivity|]. split; [lia|]. eapply mem_cast; [exact M2|]. cbn [repeat map skipn app]. lapp. auto.
Qed.
Lemma are_snd v (l : line) : map fw (all_are v l) = repeat v (length l).
Proof. unfold all_are. rewrite map_map. cbn. induction l; simpl; f_equal; auto. Qed.
Lemma are_fst v (l : line) : map fv (all_are v l) = map fv l.
Proof. unfold all_are. rewrite map_map. reflexivity. Qed.
Lemma new_row a A es k B b es' q : aok a (A ++ (es, k) :: B) -> map fv es = map fv es' ->
  mem false b (flat fw A ++ LWs (map fw es') ++ repeat LN k ++ flat fw B ++ repeat LN q) -> aok (set_ents b a) (A ++ (es', k) :: B).
Proof.
  intros H K M. eapply new_entries; [exact H| |eapply row_lay; exact M]. apply sk_app; [apply sk_refl|]. constructor; [split; auto|apply sk_refl].
Qed.
Lemma x_set_row_t v a A es k B n : aok a (A ++ (es, k) :: B) ->
  xspec (x_set_row chk false v (length A) n a)
    (fun n' a' => n = n' + length es /\ aok a' (A ++ (all_are v es, k) :: B))
    (fun w a' => w = Element /\ n < length es /\ aok a' (A ++ (all_are v (firstn n es) ++ skipn n es, k) :: B)).
Proof.
  intros H. pose proof H as [Ia [Lv Le]]. unfold x_set_row.
  rewrite (row_size chk Ia). cbn [xlift xbind]. rewrite (row_entries chk Ia). cbn [xlift xbind]. destruct (lay_row (Le eq_refl)) as [q M].
  eapply xspec_bind; [apply xspec_left; eapply xspec_mono; [apply (@x_assigns_t v (length es) n (ents a) (flat fw A) (map fw es) _ _ 0 M)| |]|].
  - apply map_length.
  - rewrite !flat_length. lia.
  - intros n' b Hb. exact Hb.
  - intros w b (-> & Hn & Mb). split; [reflexivity|]. split; [exact Hn|]. eapply new_row; [exact H| |].
    + rewrite map_app, are_fst, <- map_app, firstn_skipn. reflexivity.
    + eapply mem_cast; [exact Mb|]. rewrite (map_app fw), are_snd. rewrite firstn_length, Nat.min_l by lia. rewrite skipn_map. reflexivity.
  - intros n' b (-> & Mb). cbn [xspec]. split; [reflexivity|]. eapply new_row; [exact H| |].
    + rewrite are_fst. reflexivity.
    + rewrite are_snd. exact Mb.
Qed.
Definition nlines (B : rows_t) := length (concat (map fst B)).
Lemma x_set_rows_t v B : forall A a n, aok a (A ++ B) ->
  xspec (xfor_up (length B) (x_set_row chk false v) (length A) n a)
    (fun n' _ => n = n' + nlines B)
    (fun w a' => w = Element /\ n < nlines B /\ exists B', aok a' (A ++ B') /\ map fst B' = first_are v n (map fst B)).
Proof.
  induction B as [|[es k] B IH]; intros A a n H; cbn [xfor_up length].
  - cbn. lia.
  - unfold nlines. cbn [map concat fst]. rewrite app_length. fold (nlines B).
    assert (Hd : forall m, m <= 0 -> first_are v m (map fst B) = map fst B).
    { intros m Hm. assert (m = 0) as -> by lia. generalize (map fst B). induction l as [|x l IHl]; simpl; auto. rewrite IHl. reflexivity. }
    eapply xspec_bind; [eapply xspec_mono; [apply x_set_row_t; exact H| |]|].
    + intros n' a' E. exact E.
    + intros w a' (-> & Hn & H'). split; [reflexivity|]. split; [lia|]. eexists. split; [exact H'|]. cbn [map fst first_are].
      f_equal. symmetry. apply Hd. lia.
    + intros n' a' (-> & H'). replace (length A + 1) with (length (A ++ [(all_are v es, k)])) by len.
      eapply xspec_mono; [apply IH; rewrite <- app_assoc; exact H'| |].
      * intros n2 _ ->. lia.
      * intros w a2 (-> & Hn & B' & H2 & E2). split; [reflexivity|]. split; [lia|]. exists ((all_are v es, k) :: B'). rewrite <- app_assoc in H2. split; [exact H2|].
        cbn [map fst first_are]. rewrite firstn_all2, skipn_all2, app_nil_r by lia. f_equal. rewrite E2. f_equal. lia.
Qed.
Lemma first_incrs v M : Forall (fun l => pincr l) M -> forall n, Forall (fun l => pincr l) (first_are v n M).
Proof.
  induction 1 as [|l M I F IH]; intros n; cbn [first_are]; constructor; auto.
  apply (proj1 (map_key_incr Z.ltb fv _)). rewrite map_app, are_fst, <- map_app, firstn_skipn. apply (proj2 (map_key_incr Z.ltb fv _)). exact I.
Qed.
Lemma mranged_cols nc M M' : map (map fv) M = map (map fv) M' -> mranged nc (as_maps M) -> mranged nc (as_maps M').
Proof.
  intros E G S c HS [w Hw]. unfold as_maps in HS. apply in_map_iff in HS. destruct HS as (l' & <- & Hl').
  assert (Hc : In (map fv l') (map (map fv) M)) by (rewrite E; apply in_map; exact Hl').
  apply in_map_iff in Hc. destruct Hc as (l & El & Hl). assert (Hcl : In c (map fv l)) by (rewrite El; exact (in_map fv _ _ Hw)).
  apply in_map_iff in Hcl. destruct Hcl as ([c' u] & <- & Hu). apply (G (fun e => In e l)).
  - unfold as_maps. apply in_map_iff. exists l. auto.
  - exists u. exact Hu.
Qed.
Lemma first_cols v M : forall n, map (map fv) (first_are v n M) = map (map fv) M.
Proof.
  induction M as [|l M IH]; intros n; cbn [first_are map]; auto. rewrite IH. f_equal. rewrite map_app, are_fst, <- map_app, firstn_skipn. reflexivity.
Qed.
Lemma x_setValues_t p M nc v n : lrep p (M, nc) ->
  weak (x_crs_setValues chk false n p v) (fun n' => n = n' + length (concat M))
    (fun t => n < length (concat M) /\ lrep t (first_are v n M, nc)).
Proof.
  intros (L & H & EM & F & E & G). cbn [fst snd] in *. unfold x_crs_setValues. pose proof H as [(N & _) _]. rewrite N.
  eapply weak_bind; [apply weak_left, weak_spec; eapply xspec_mono; [apply (@x_set_rows_t v L [] (rows p) n H)| |]|].
  - intros n' a' E'. unfold nlines in E'. rewrite EM in E'. exact E'.
  - intros w t (-> & Hn & B' & H' & E'). unfold nlines in Hn. rewrite EM in *. split; [reflexivity|]. split; [exact Hn|].
    exists B'. split; [exact H'|]. cbn [fst snd back ncols]. split; [exact E'|]. split; [apply first_incrs; exact F|]. split; [exact E|].
    eapply mranged_cols; [|exact G]. symmetry. apply first_cols.
  - intros n' a' ->. cbn [weak]. reflexivity.
Qed.

(** ** Additions *)
Lemma x_loop_t seek e adds : forall n (b : buf W) cur,
  weak (x_each (fun n st cv =>
      let! n1 pos <~ xlift n (fst st) (seek (snd st) (fst cv)) ;;
      let! n2 b' <~ x_add_at false add n1 (fst st) (e + pos) (snd cv) ;;
      XOk n2 (b', pos + 1)) adds n (b, cur))
    (fun n' => n = n' + length adds)
    (fun t => n < length adds /\ exists j, fold_left (fun st cv => s <- st ;; add_step false add seek e s cv) (firstn n adds) (Ok (b, cur)) = Ok (t, j)).
Proof.
  induction adds as [|cv adds IH]; intros n b cur; cbn [x_each length].
  - cbn [weak]. lia.
  - cbn [fst snd]. destruct (seek cur (fst cv)) as [pos| |] eqn:Es; cbn [xlift xbind weak]; auto. unfold x_add_at.
    destruct (rd b (e + pos)) as [u| |] eqn:Er; cbn [xlift xbind weak]; auto. unfold x_assign.
    destruct n as [|n]; cbn [xbind weak].
    + split; [lia|]. exists cur. reflexivity.
    + destruct (assign false b (e + pos) (add u (snd cv))) as [b'| |] eqn:Ea; cbn [xlift xbind weak]; auto.
      eapply weak_mono; [apply (IH n b' (pos + 1))| |].
      * intros n' ->. lia.
      * intros t (Hn & j & Ej). split; [lia|]. exists j. cbn [firstn fold_left bind]. unfold add_step at 2. cbn [fst snd].
        rewrite Es. cbn [bind]. unfold add_at. rewrite Er. cbn [bind]. rewrite Ea. cbn [bind]. exact Ej.
Qed.
Lemma x_add_with_t seek p row adds n :
  weak (x_add_with chk false add seek n p row adds) (fun n' => n = n' + length adds)
    (fun t => n < length adds /\ add_with chk false add seek p row (firstn n adds) = Ok t).
Proof.
  unfold x_add_with, add_with. destruct (numNonZeros chk p row) as [nnz| |]; cbn [xlift xbind weak bind]; auto.
  destruct (getSetValues chk (rows p) row) as [col| |]; cbn [xlift xbind weak bind]; auto.
  destruct (getEntries chk (rows p) row) as [e| |]; cbn [xlift xbind weak bind]; auto.
  eapply weak_bind; [apply weak_left; eapply weak_mono; [apply x_loop_t| |]|].
  - intros n' E. exact E.
  - intros t (Hn & j & Ej). split; [exact Hn|]. rewrite Ej. reflexivity.
  - intros n' r ->. reflexivity.
Qed.
Lemma firstn_strong (adds : line) n : increasing Z.ltb (map fst adds) -> increasing Z.ltb (map fst (firstn n adds)).
Proof.
  rewrite !(increasing_strong Z.ltb). intros I. rewrite <- (firstn_skipn n adds), map_app in I. apply strong_app in I. tauto.
Qed.
Lemma in_first (adds : line) n c : In c (map fst (firstn n adds)) -> In c (map fst adds).
Proof. intros H. apply in_map_iff in H. destruct H as (x & <- & Hx). apply in_map. eapply ThrowSetsProofs3.firstn_In; eauto. Qed.
Lemma plus_lrep p M nc i l adds : Forall (fun l => pincr l) M -> nth_error M i = Some l ->
  mrep false p (put_at (as_maps M) i (added add adds (fun x => In x l)), nc) -> lrep p (put_at M i (plus_all add adds l), nc).
Proof.
  intros F N R. eapply mrep_lrep; [exact R| |].
  - unfold as_maps at 2. rewrite <- ThrowSetsProofs3.put_map. unfold put_at. apply Forall2_app; [apply (eqv_refl add zero)|].
    constructor; [|apply (eqv_refl add zero)]. intros x. symmetry. apply plus_in.
  - apply put_incrs; auto. apply same_cols_incr; auto. rewrite Forall_forall in F. apply F. eapply nth_error_In; eauto.
Qed.
Lemma on_elem_some {Y} (M : list Y) i l f : nth_error M i = Some l -> on_elem M i f = Some (put_at M i (f l)).
Proof. intros N. unfold on_elem. rewrite N. reflexivity. Qed.
Lemma as_maps_at M i l : nth_error M i = Some l -> nth_error (as_maps M) i = Some (fun x => In x l).
Proof. intros N. unfold as_maps. rewrite nth_error_map, N. reflexivity. Qed.

Lemma x_addUnsorted_t p M nc i l adds n : lrep p (M, nc) -> nth_error M i = Some l -> callowed false (CAddUnsorted i adds) (as_maps M, nc) ->
  weak (x_addUnsorted chk false add n p i adds) (fun n' => n = n' + length adds)
    (fun t => n < length adds /\ lrep t (put_at M i (plus_all add (firstn n adds) l), nc)).
Proof.
  intros R N Al. eapply weak_mono; [apply x_add_with_t|auto|]. intros t (Hn & Et). split; [exact Hn|].
  rewrite <- addUnsorted_with in Et. pose proof R as (_ & _ & _ & F & _). cbn [fst] in F. apply plus_lrep; auto.
  destruct (@addUnsorted_rep W chk false add p (as_maps M) nc i _ (firstn n adds) (lrep_mrep add zero R) (as_maps_at N)) as (t' & Et' & R').
  - intros c Hc. apply (Al _ c (as_maps_at N)). eapply in_first; eauto.
  - rewrite Et in Et'. injection Et' as <-. exact R'.
Qed.
Lemma x_addToRow_t p M nc i l adds n : lrep p (M, nc) -> nth_error M i = Some l -> callowed false (CAdd i adds) (as_maps M, nc) ->
  weak (x_addToRow chk false add n p i adds) (fun n' => n = n' + length adds)
    (fun t => n < length adds /\ lrep t (put_at M i (plus_all add (firstn n adds) l), nc)).
Proof.
  intros R N [Iv Al]. unfold x_addToRow. eapply weak_bind; [apply weak_lift with (Q := fun n0 : nat => n0 = n); reflexivity|]. intros n1 nnz ->.
  pose proof R as (_ & _ & _ & F & _). cbn [fst] in F.
  assert (Hc : forall c, In c (map fst (firstn n adds)) -> has (fun x => In x l) c).
  { intros c Hc. apply (Al _ c (as_maps_at N)). eapply in_first; eauto. }
  destruct (_ && _)%bool; (eapply weak_mono; [apply x_add_with_t|auto|]; intros t (Hn & Et); split; [exact Hn|]; apply plus_lrep; auto).
  - rewrite <- addBinary_with in Et.
    destruct (@addBinary_rep W chk false add p (as_maps M) nc i _ (firstn n adds) (lrep_mrep add zero R) (as_maps_at N) Hc (@firstn_strong adds n Iv)) as (t' & Et' & R').
    rewrite Et in Et'. injection Et' as <-. exact R'.
  - rewrite <- addLinear_with in Et.
    destruct (@addLinear_rep W chk false add p (as_maps M) nc i _ (firstn n adds) (lrep_mrep add zero R) (as_maps_at N) Hc (@firstn_strong adds n Iv)) as (t' & Et' & R').
    rewrite Et in Et'. injection Et' as <-. exact R'.
Qed.

(** ** Insertions *)
Lemma asked_missing es (ws : line) : new_values Z.eqb (map fv ws) (map fv es) = map fv (missing es ws).
Proof. rewrite (new_missing zorder). apply missing_map. Qed.
Lemma weak_quiet (x : xout matrix matrix) Q T : weak x Q T -> weak (x_quiet x) Q T.
Proof. intros H. unfold x_quiet. eapply weak_bind; [exact H|]. intros n p E. exact E. Qed.

Lemma x_cstep_weak c p M nc st' n : lrep p (M, nc) -> callowed false c (as_maps M, nc) -> rows_after add zero cmax c (M, nc) = Some st' ->
  weak (x_cstep n c p) (fun n' => n = n' + ccost c M)
    (fun t => n < ccost c M /\ left_c (cleft c M n) t (shown add c M n) nc (cgap c M n)).
Proof.
  intros R Al E.
  assert (OE : forall (i : nat) (f : line -> line), match on_elem M i f with Some M' => Some (M', nc) | None => None end = Some st' -> exists l, nth_error M i = Some l).
  { intros i f G. unfold on_elem in G. destruct (nth_error M i) as [l|]; [eauto|discriminate]. }
  destruct c as [nr nc1 cap|nc1 caps|m|i m|i m| |i v w|i vs|i v|i vs|v| |i adds|i adds];
    try (cbn [x_cstep]; apply weak_lift; cbn; lia).
  - destruct (OE i _ E) as [es N]. pose proof R as (L & H & EM & F & Enc & G). cbn [fst snd] in EM, F, Enc, G.
    destruct (ThrowSetsProofs3.row_split N EM) as (A & k & B & -> & <-).
    assert (I : pincr es) by (rewrite Forall_forall in F; apply F; eapply nth_error_In; eauto).
    pose proof H as [Ia _]. set (e := (v, w)).
    assert (EQ : asked Z.eqb (SInsert (fst e)) (map fv es) = map fv (missing es [e])) by exact (asked_missing es [e]).
    cbn [ThrowCRS.x_cstep]. unfold x_crs_insertNonZero, numNonZeros, nonZeroCapacity. rewrite (row_size chk Ia). cbn [xlift xbind]. rewrite (row_capacity chk Ia). cbn [xlift xbind].
    assert (Hm : ccost (CInsert (length A) v w) M = length (missing es [e])).
    { unfold ccost. cbn [as_insertion]. unfold scost, columns_of. rewrite (nth_error_nth M _ [] N). etransitivity; [exact (f_equal (@length Z) EQ)|apply map_length]. }
    rewrite Hm. unfold cleft, cgap, shown. cbn [as_insertion]. unfold columns_of. rewrite (nth_error_nth M _ [] N).
    eapply weak_bind; [unfold x_with_rows; eapply weak_bind; [apply weak_left; eapply weak_mono|]|].
    + apply (@x_ins_t W chk (x_crs_cb chk false p (length A) (length es) (length es + k) [w]) (rows p) A es k B e
        (grown p es k (length (missing es [e]))) 0 n H I eq_refl).
      cbn [x_crs_cb xcb_inc]. apply owner_inc; [exact H|].
      assert (RS : rowset fv Z.ltb (es, k) (fun x => In x es)) by (split; [exact I|simpl; tauto]).
      apply (@grown_enough W p nc es k _ [e] Enc RS).
      * exact (mranged_at G (as_maps_at N)).
      * repeat constructor.
      * constructor; [exact Al|constructor].
    + intros n' En. exact En.
    + intros t (Hn & t' & -> & Tn). split; [exact Hn|]. rewrite <- EM in F, G |- *.
      destruct (@torn_left W chk (SInsert (fst e)) A es k B _ nc [e] n t' F G EQ Tn Hn) as (u & Nu & Lt).
      change (SInsert v) with (SInsert (fst e)). rewrite Nu. unfold back. rewrite Enc. exact Lt.
    + intros n' r En. exact En.
    + intros n' r En. exact En.
  - destruct (OE i _ E) as [es N]. pose proof R as (L & H & EM & F & Enc & G). cbn [fst snd] in EM, F, Enc, G.
    destruct (ThrowSetsProofs3.row_split N EM) as (A & k & B & -> & <-).
    assert (I : pincr es) by (rewrite Forall_forall in F; apply F; eapply nth_error_In; eauto).
    pose proof H as [Ia _]. destruct Al as [Iv Fv]. apply keys_incr in Iv.
    assert (EQ : asked Z.eqb (SInsertRange (map fst vs)) (map fv es) = map fv (missing es vs)) by exact (asked_missing es vs).
    cbn [ThrowCRS.x_cstep]. unfold x_crs_insertNonZeros, numNonZeros, nonZeroCapacity. rewrite (row_size chk Ia). cbn [xlift xbind]. rewrite (row_capacity chk Ia). cbn [xlift xbind].
    assert (Hm : ccost (CInserts (length A) vs) M = length (missing es vs)).
    { unfold ccost. cbn [as_insertion]. unfold scost, columns_of. rewrite (nth_error_nth M _ [] N). etransitivity; [exact (f_equal (@length Z) EQ)|apply map_length]. }
    rewrite Hm. unfold cleft, cgap, shown. cbn [as_insertion]. unfold columns_of. rewrite (nth_error_nth M _ [] N).
    unfold x_with_rows; eapply weak_bind; [apply weak_left; eapply weak_mono|].
    + apply (@x_inss_t W chk (x_crs_cb chk false p (length A) (length es) (length es + k) (map snd vs)) (rows p) A es k B vs
        (grown p es k (length (missing es vs))) 0 n H I Iv eq_refl).
      cbn [x_crs_cb xcb_inc]. apply owner_inc; [exact H|].
      assert (RS : rowset fv Z.ltb (es, k) (fun x => In x es)) by (split; [exact I|simpl; tauto]).
      apply (@grown_enough W p nc es k _ vs Enc RS).
      * exact (mranged_at G (as_maps_at N)).
      * exact Iv.
      * exact Fv.
    + intros n' En. exact En.
    + intros t (Hn & t' & -> & Tn). split; [exact Hn|]. rewrite <- EM in F, G |- *.
      destruct (@torn_left W chk (SInsertRange (map fst vs)) A es k B _ nc vs n t' F G EQ Tn Hn) as (u & Nu & Lt).
      rewrite Nu. unfold back. rewrite Enc. exact Lt.
    + intros n' r En. exact En.
  - cbn [ThrowCRS.x_cstep]. apply weak_quiet. exact (x_setValues_t v n R).
  - destruct (OE i _ E) as [l N]. cbn [ThrowCRS.x_cstep]. apply weak_quiet. unfold shown. rewrite (on_elem_some _ N). exact (x_addToRow_t n R N Al).
  - destruct (OE i _ E) as [l N]. cbn [ThrowCRS.x_cstep]. apply weak_quiet. unfold shown. rewrite (on_elem_some _ N). exact (x_addUnsorted_t n R N Al).
Qed.

Theorem x_cstep_ok c p M nc st' n : lrep p (M, nc) -> callowed false c (as_maps M, nc) -> rows_after add zero cmax c (M, nc) = Some st' ->
  xokb false (x_cstep n c p)
    (fun n' r => n = n' + ccost c M /\ cstep c p = Ok r /\ lrep (fst r) st')
    (fun w t => w = Element /\ n < ccost c M /\ left_c (cleft c M n) t (shown add c M n) nc (cgap c M n)).
Proof.
  intros R Al E. pose proof (x_cstep_weak n R Al E) as K. pose proof (cstep_lrep chk R Al E) as S.
  pose proof (@sim_cstep W chk false cmax add zero n c p) as SM.
  destruct (x_cstep n c p) as [n' r|[] t|f]; cbn [sim weak] in *.
  - left. cbn [xspec]. split; [exact K|]. split; [exact SM|]. rewrite SM in S. destruct S as [(r' & Er & Lr)|[_ ?]]; [|discriminate]. injection Er as <-. exact Lr.
  - left. cbn [xspec]. tauto.
  - exfalso. rewrite SM in S. destruct S as [(r' & Er & Lr)|[_ ?]]; discriminate.
  - rewrite SM in S. destruct S as [(r' & Er & Lr)|[_ Ef]]; [discriminate|]. right. injection Ef as ->. auto.
Qed.

(** ** insertNonZeros of the view *)
Lemma put_split A es k B es' : put_at (map fst (A ++ (es, k) :: B)) (length A) es' = map fst A ++ es' :: map fst B.
Proof.
  unfold put_at. rewrite map_app. cbn [map fst]. rewrite firstn_app, map_length, Nat.sub_diag, firstn_O, app_nil_r.
  rewrite firstn_all2 by (rewrite map_length; lia). rewrite skipn_app, map_length. rewrite skipn_all2 by (rewrite map_length; lia).
  replace (length A + 1 - length A) with 1 by lia. reflexivity.
Qed.
Lemma x_view_ok p M nc i l k ws M' n : lrep p (M, nc) -> nth_error M i = Some l -> nonZeroCapacity chk p i = Ok k ->
  let c := CInserts i ws in
  callowed false c (as_maps M, nc) -> rows_after add zero cmax c (M, nc) = Some (M', nc) -> length l + ccost c M <= k ->
  (ccost c M <= n -> exists p', x_crs_v_insertNonZeros chk false n p i (map fst ws) (map snd ws) = XOk (n - ccost c M) (p', ccost c M) /\
     crs_v_insertNonZeros chk false p i (map fst ws) (map snd ws) = Ok (p', ccost c M) /\ lrep p' (M', nc) /\ nonZeroCapacity chk p' i = Ok k) /\
  (n < ccost c M -> exists t, x_crs_v_insertNonZeros chk false n p i (map fst ws) (map snd ws) = XThrow Element t /\
     left_c (cleft c M n) t M nc (cgap c M n)).
Proof.
  intros R N Ck c Al Y. pose proof R as (L & H & EM & F & Enc & G). cbn [fst snd] in EM, F, Enc, G.
  destruct (ThrowSetsProofs3.row_split N EM) as (A & k0 & B & -> & <-).
  assert (I : pincr l) by (rewrite Forall_forall in F; apply F; eapply nth_error_In; eauto).
  pose proof H as [Ia _]. destruct Al as [Iv Fv]. apply keys_incr in Iv. cbn [snd] in Fv.
  assert (EQ : asked Z.eqb (SInsertRange (map fst ws)) (map fv l) = map fv (missing l ws)) by exact (asked_missing l ws).
  assert (Hm : ccost c M = length (missing l ws)).
  { unfold ccost, c. cbn [as_insertion]. unfold scost, columns_of. rewrite (nth_error_nth M _ [] N). etransitivity; [exact (f_equal (@length Z) EQ)|apply map_length]. }
  unfold nonZeroCapacity in *. rewrite (row_capacity chk Ia) in Ck. injection Ck as <-. rewrite Hm. intros HC.
  pose proof (@view_inc W chk false (map snd ws) (rows p) A l k0 B (length (missing l ws)) H ltac:(lia)) as VI.
  assert (VO : okb true (crs_v_insertNonZeros chk false p (length A) (map fst ws) (map snd ws))
     (fun r => snd r = length (missing l ws) /\ lrep (fst r) (M', nc) /\ capacityOfArray chk (rows (fst r)) (length A) = Ok (length l + k0))).
  { unfold crs_v_insertNonZeros, numNonZeros, nonZeroCapacity. rewrite (row_size chk Ia). cbn [bind]. rewrite (row_capacity chk Ia). cbn [bind].
    rewrite (row_entries chk Ia). cbn [bind]. unfold with_rows. eapply okb_bind.
    - eapply (@inss_row W chk false true) with (C := length l + k0); [exact H|exact I|exact Iv|reflexivity|]. cbn zeta. left. exact VI.
    - intros [a r] [Er H']. left. apply oks_ok. cbn [fst snd rows] in *. split; [exact Er|].
      pose proof (@pinserts_length Z P Z.ltb Z.eqb fv zorder ws l I Iv) as PL. change (absent Z.eqb fv l ws) with (length (missing l ws)) in PL.
      assert (EP : fold_right pins l ws = fold_right (@put_new W) l ws) by (symmetry; apply puts_pins; auto).
      assert (IP : pincr (fold_right pins l ws)).
      { apply (@pinserts_incr Z P Z.ltb Z.eqb fv zorder); auto. }
      split; [|destruct H' as [I' _]; rewrite (row_capacity chk I'); f_equal; lia].
      cbn [rows_after] in Y. unfold c in Y. cbn [rows_after] in Y. rewrite (on_elem_some _ N) in Y. injection Y as <-.
      eexists. split; [exact H'|]. cbn [fst snd ncols]. rewrite map_app. cbn [map fst]. rewrite <- EM, put_split, EP. split; [reflexivity|].
      rewrite <- (put_split A l k0 B (fold_right (@put_new W) l ws)), EM. split; [apply put_incrs; auto; rewrite <- EP; exact IP|]. split; [exact Enc|].
      unfold as_maps. rewrite <- ThrowSetsProofs3.put_map. apply mranged_put; [exact G|]. intros x [w Hw]. rewrite <- EP in Hw.
      assert (RS : rowset fv Z.ltb (l, k0) (fun x => In x l)) by (split; [exact I|simpl; tauto]).
      apply (@inserted_range W (fun x => In x l) ws nc (mranged_at G (as_maps_at N)) Fv). exists w.
      apply (rowset_ins 0 RS Iv). exact Hw. }
  assert (K : weak (x_crs_v_insertNonZeros chk false n p (length A) (map fst ws) (map snd ws)) (fun n' => n = n' + length (missing l ws))
    (fun t => n < length (missing l ws) /\ left_c (cleft c M n) t M nc (cgap c M n))).
  { unfold x_crs_v_insertNonZeros, numNonZeros, nonZeroCapacity. rewrite (row_size chk Ia). cbn [xlift xbind]. rewrite (row_capacity chk Ia). cbn [xlift xbind].
    rewrite (row_entries chk Ia). cbn [xlift xbind]. unfold cleft, cgap, c. cbn [as_insertion]. unfold columns_of. rewrite (nth_error_nth M _ [] N).
    unfold x_with_rows; eapply weak_bind; [apply weak_left; eapply weak_mono|].
    + apply (@x_inss_t W chk (x_crs_view_cb chk false (length A) (length l) (length l + k0) (map snd ws)) (rows p) A l k0 B ws
        (length l + k0) (length (flat fv A)) n H I Iv eq_refl). left. exact VI.
    + intros n' En. exact En.
    + intros t (Hn & t' & -> & Tn). split; [exact Hn|]. rewrite <- EM in F, G |- *.
      destruct (@torn_left W chk (SInsertRange (map fst ws)) A l k0 B _ nc ws n t' F G EQ Tn Hn) as (u & Nu & Lt).
      rewrite Nu. unfold back. rewrite Enc. exact Lt.
    + intros n' r En. exact En. }
  pose proof (@sim_v_insertNonZeros W chk false n p (length A) (map fst ws) (map snd ws)) as SM.
  destruct (x_crs_v_insertNonZeros chk false n p (length A) (map fst ws) (map snd ws)) as [n' r|[] t|f]; cbn [sim weak] in *;
    try (exfalso; rewrite SM in VO; destruct VO as [(? & ? & _)|[? _]]; discriminate).
  - subst n. split; [|lia]. intros _. rewrite Nat.add_sub. rewrite SM in VO. destruct VO as [(r' & Er & E1 & E2 & E3)|[? _]]; [|discriminate]. injection Er as <-.
    destruct r as [p' r]. cbn [fst snd] in *. subst r. exists p'. auto.
  - destruct K as [Hn Lt]. split; [lia|]. intros _. exists t. auto.
Qed.

(** ** Rejected calls *)
Lemma x_cstep_error c p M nc n : chk = true -> lrep p (M, nc) -> callowed false c (as_maps M, nc) -> rows_after add zero cmax c (M, nc) = None ->
  x_cstep n c p = XThrow Error p.
Proof.
  intros Hc R Al Y. pose proof (lrep_mrep add zero R) as MR. apply (proj1 (rows_after_none add zero cmax c M nc)) in Y.
  pose proof (@CRSProofs4.cstep_ok W chk false add zero cmax c p (as_maps M, nc) MR Al) as S. rewrite Y in S. specialize (S Hc).
  pose proof MR as (Rp & _).
  assert (Bad : forall i (g : row_map W -> row_map W), match on_elem (as_maps M) i g with Some M' => Some (M', nc) | None => None end = None -> check_array chk (rows p) i = Abort).
  { intros i g Q. apply (SetsProofs2.bad_check Hc Rp). cbn [fst]. unfold on_elem in Q. destruct (nth_error (as_maps M) i) eqn:Ei; [discriminate|first [reflexivity|exact Ei]]. }
  destruct c; cbn [ThrowCRS.x_cstep]; try (rewrite S; reflexivity); try discriminate Y.
  - unfold x_crs_insertNonZero, numNonZeros, sizeOfArray. rewrite (Bad _ _ Y). reflexivity.
  - unfold x_crs_insertNonZeros, numNonZeros, sizeOfArray. rewrite (Bad _ _ Y). reflexivity.
  - unfold x_addToRow, numNonZeros, sizeOfArray. rewrite (Bad _ _ Y). reflexivity.
  - unfold x_addUnsorted, x_add_with, numNonZeros, sizeOfArray. rewrite (Bad _ _ Y). reflexivity.
Qed.

(** ** Programs *)
Lemma lrep_dtor p st : lrep p st -> crs_dtor chk false BMalloc p = Ok tt.
Proof. destruct st as [M nc]. intros R. exact (CRSProofs4.mdtor chk (lrep_mrep add zero R)). Qed.
Definition ended (st : state_left) (t : matrix) (r : lines W) : Prop :=
  match st with
  | Usable => lrep t r
  | Forgets => crs_dtor chk false BMalloc t = Fault FLeak /\ shows_all chk t (fst r) (snd r)
  | Corrupt => crs_dtor chk false BMalloc t = Fault FDestroy
  end.
Theorem x_crun_ok h : forall p st st' s, lrep p st -> keeps_rules add zero cmax h st -> cfate add zero cmax h st = Some (st', s) ->
  okb false (x_crun chk false cmax add zero h p) (fun t => ended s t st').
Proof.
  induction h as [|[n c] h IH]; intros p st st' s R F E; cbn [cfate x_crun keeps_rules] in *.
  - injection E as <- <-. left. apply oks_ok. exact R.
  - destruct F as [Al F]. destruct st as [M nc]. unfold after_call in *. cbn [fst snd] in *.
    destruct (rows_after add zero cmax c (M, nc)) as [st1|] eqn:EM; [|discriminate].
    destruct (x_cstep_ok n R Al EM) as [S|[_ ->]]; [|right; auto].
    destruct (x_cstep n c p) as [n' r|w t|f]; cbn [xspec] in S; [| |contradiction].
    + destruct S as (-> & Er & Lr). replace (ccost c M <=? n' + ccost c M) with true in E, F by (symmetry; apply Nat.leb_le; lia).
      eapply IH; eauto.
    + destruct S as (-> & Hn & Lt). replace (ccost c M <=? n) with false in E, F by (symmetry; apply Nat.leb_gt; lia).
      destruct (cleft c M n); cbn [ThrowCRSProofs4.left_c] in Lt.
      * rewrite (lrep_dtor Lt). eapply IH; eauto.
      * injection E as <- <-. destruct Lt as [D Sh]. rewrite D. left. apply oks_ok. split; auto.
      * injection E as <- <-. destruct Lt as [D _]. rewrite D. left. apply oks_ok. exact D.
Qed.
End Calls.
