(** Insertion into and removal from the rows of a CRSMatrix. *)
From Coq Require Import List Arith ZArith Lia Bool Sorting.Sorted.
From Verif Require Import Base BaseProofs Mem MemProofs ArrayManipProofs BufferManip BufferManipProofs
  Sorted SortedSpec SortedProofs SortedProofs2 SortedProofs3 SortedArraySpec AoA AoASpec AoALayout AoAProofs AoAProofs2 AoAProofs4
  AoS AoSSpec SetsProofs SetsProofs2 AoSProofs Sparsity SparsitySpec SparsityProofs CRS CRSSpec CRSProofs.
From Verif Require ArrayManip.
Import ListNotations.
Set Implicit Arguments.
Unset Strict Implicit.

Section CRS.
Variable W : Type.
Variable chk tw : bool.
Notation kind := BMalloc.
Notation aoa := (aoa Z W).
Notation X := (aoa * nat)%type.
Notation matrix := (pattern W).
Notation P := (Z * W)%type.
Notation fv := (@fst Z W).
Notation fw := (@snd Z W).
Notation row := (list P * nat)%type.
Notation rows_t := (list row).
Notation aok := (@aok P Z W fv fw true tw true).
Notation iok := (@iok P Z W).
Notation rx := (@rx P Z W fv fw tw true).
Notation rowset := (@rowset P Z fv Z.ltb).
Notation rep := (@rep P Z W fv fw true tw true Z.ltb).
Notation pincr l := (StronglySorted (fun x y => (fst x <? fst y)%Z = true) l).
Notation LWs := (map (@LV W)).
Notation pins := (pinsert Z.ltb Z.eqb fv).
Notation row_map := (row_map W).
Implicit Types a : aoa.
Implicit Types A B L : rows_t.
Implicit Types p : matrix.
Implicit Types M : list row_map.

Lemma row_entries a A r k B : iok a (A ++ (r, k) :: B) -> getEntries chk a (length A) = Ok (length (flat fv A)).
Proof. exact (@row_values P Z W fv chk a A r k B). Qed.
Lemma okb_tw Y (m : outcome Y) Q : okb (allt true tw true) m Q -> okb tw m Q.
Proof. unfold allt. simpl. auto. Qed.

(** ** incrementSize *)
Lemma inc_done a A es C B n : aok a (A ++ (es, C - length es) :: B) -> length es + n <= C ->
  oks (e <- getEntries chk a (length A) ;; c <- getSetValues chk a (length A) ;; Ok (vals a, (a, e), c))
      (inc_post true fv (rx (eq LN) A es C B) es n).
Proof.
  intros [I [Ev Ee]] LC. rewrite (row_entries I). cbn [bind]. rewrite (row_values fv chk I). cbn [bind]. apply oks_ok. cbn.
  destruct (lay_row Ev) as [q M]. exists (flat fv A), (repeat LN (C - length es - n) ++ flat fv B ++ repeat LN q).
  split; auto. split.
  - eapply mem_cast; [exact M|]. do 2 f_equal. rewrite !app_assoc, <- repeat_app_add. do 3 f_equal. lia.
  - exists q. rewrite app_length, map_length, repeat_length.
    replace (C - (length es + n)) with (C - length es - n) by lia.
    split; auto. split; auto. split; [lia|]. split; [lia|]. split; [exact I|].
    intros D. split; [reflexivity|]. destruct (lay_row (Ee D)) as [q' Me]. exists (LWs (map fw es) ++ repeat LN n), q'. split.
    + apply Forall2_app; [apply some_f2|apply none_f2].
    + eapply mem_cast; [exact Me|]. rewrite <- !app_assoc. do 2 f_equal.
      rewrite !app_assoc, <- repeat_app_add. do 3 f_equal. lia.
Qed.
Lemma set_same a : set_vals (vals a) a = a. Proof. destruct a; reflexivity. Qed.
Definition grown p (es : list P) k n : nat := if length es + k <? length es + n then clamp p (2 * (length es + n)) else length es + k.
Lemma owner_inc p ws a A es k B n e0 : aok a (A ++ (es, k) :: B) -> length es + n <= grown p es k n ->
  okb tw (cb_inc (crs_cb chk tw kind p (length A) (length es) (length es + k) ws) n (vals a, (a, e0)))
      (inc_post true fv (rx (eq LN) A es (grown p es k n) B) es n).
Proof.
  intros H LC. cbn [cb_inc crs_cb]. rewrite set_same. unfold grown in *.
  destruct (Nat.ltb_spec (length es + k) (length es + n)) as [Lt|Ge].
  - eapply okb_bind.
    + apply okb_tw. eapply okb_or_l, setCapacity_ok; [exact H|reflexivity].
    + intros a' H'. left. rewrite firstn_all2 in H' by lia. apply inc_done; auto.
  - cbn [bind]. left. apply inc_done; auto. replace (length es + k - length es) with k by lia. exact H.
Qed.
Lemma view_inc ws a A es k B n : aok a (A ++ (es, k) :: B) -> n <= k ->
  oks (cb_inc (crs_view_cb chk tw (length A) (length es) (length es + k) ws) n (vals a, (a, length (flat fv A))))
      (inc_post true fv (rx (eq LN) A es (length es + k) B) es n).
Proof.
  intros H LC. cbn [cb_inc crs_view_cb]. rewrite set_same. rewrite check_if_ok.
  2: destruct (Nat.ltb_spec (length es + k) (length es + n)); [lia|reflexivity].
  pose proof H as [I _]. cbn [bind].
  assert (H' : aok a (A ++ (es, length es + k - length es) :: B)) by (replace (length es + k - length es) with k by lia; exact H).
  assert (LC' : length es + n <= length es + k) by lia.
  pose proof (inc_done H' LC') as G. rewrite (row_entries I) in G. exact G.
Qed.

(** ** On one row *)
Lemma ins_row t (cb : callbacks Z X) a A es k B w C e0 : aok a (A ++ (es, k) :: B) -> pincr es ->
  (forall ev, cb_ev cb ev = crs_ev chk tw (length es) [snd w] ev) ->
  (let n := if present Z.eqb fv es (fst w) then 0 else 1 in
   okb t (cb_inc cb n (vals a, (a, e0))) (inc_post true fv (rx (eq LN) A es C B) es n)) ->
  okb t (insertIntoSetImpl chk true Z.ltb Z.eqb cb a e0 (length A) (fst w))
    (fun r => snd r = negb (present Z.eqb fv es (fst w)) /\ aok (fst r) (A ++ (pins w es, C - length (pins w es)) :: B)).
Proof.
  intros H I EV Hi. eapply okb_mono.
  - apply (@insertSet_ok P Z W fv fw chk true tw true Z.ltb Z.eqb zorder cb a A es k B w e0 t C H I Hi).
    intros p' s' f1 g1 x' -> R. rewrite EV. apply ev_insert. exact R.
  - intros r (H1 & _ & H2). auto.
Qed.
Lemma inss_row t (cb : callbacks Z X) a A es k B ws C e0 : aok a (A ++ (es, k) :: B) -> pincr es -> pincr ws ->
  (forall ev, cb_ev cb ev = crs_ev chk tw (length es) (map snd ws) ev) ->
  (let n := absent Z.eqb fv es ws in
   okb t (cb_inc cb n (vals a, (a, e0))) (inc_post true fv (rx (eq LN) A es C B) es n)) ->
  let es' := fold_right pins es ws in
  okb t (insertsIntoSetImpl chk true Z.ltb Z.eqb cb a e0 (length A) (map fst ws))
    (fun r => snd r = absent Z.eqb fv es ws /\ aok (fst r) (A ++ (es', C - length es') :: B)).
Proof.
  intros H I Iw EV Hi es'. eapply okb_mono.
  - apply (@insertsSet_ok P Z W fv fw chk true tw true Z.ltb Z.eqb zorder cb a A es k B ws e0 t C H I Iw Hi).
    + intros _ j w x p' s' f1 g N L R. rewrite EV. eapply ev_set; eauto.
    + intros j w nl f1 g1 h1 x p' s' N R. rewrite EV. apply ev_insertN; auto.
  - intros r (H1 & _ & H2). auto.
Qed.
Lemma rem_row cap a A es k B v : aok a (A ++ (es, k) :: B) -> pincr es ->
  let es' := pdiff Z.eqb fv es [v] in
  oks (removeFromSetImpl chk true Z.ltb Z.eqb (crs_view_cb chk tw (length A) (length es) cap []) a (length (flat fv A)) (length A) v)
    (fun r => snd r = present Z.eqb fv es v /\ length es = length es' + flag (snd r) /\
              aok (fst r) (A ++ (es', length es + k - length es') :: B)).
Proof.
  intros H I es'. apply (@removeSet_ok P Z W fv fw chk true tw true Z.ltb Z.eqb zorder _ a A es k B v _ H I); [auto|].
  intros p s f1 e g1 x' -> _ R. apply ev_remove. exact R.
Qed.

Lemma rems_row nc a A es k B vs : aok a (A ++ (es, k) :: B) -> pincr es -> StronglySorted (fun x y => (x <? y)%Z = true) vs ->
  let es' := pdiff Z.eqb fv es vs in
  oks (crs_removeNonZeros chk tw (mkSP a nc) (length A) vs)
    (fun r => length es = length es' + snd r /\ ncols (fst r) = nc /\ aok (rows (fst r)) (A ++ (es', length es + k - length es') :: B)).
Proof.
  intros H I Iv es'. pose proof H as [Ia _].
  unfold crs_removeNonZeros, numNonZeros, nonZeroCapacity. cbn [rows ncols]. rewrite (row_entries Ia). cbn [bind]. rewrite (row_size chk Ia). cbn [bind]. rewrite (row_capacity chk Ia). cbn [bind].
  eapply oks_bind.
  - apply (@removesSet_ok P Z W fv fw chk true tw true Z.ltb Z.eqb zorder _ a A es k B vs _ H I Iv); [auto|].
    intros pc s f1 g1 e n x' Rx g2 g3 ->. apply ev_removeN with (e := e). exact Rx.
  - intros [a' r] (El & I' & Lv & D). cbn [fst snd] in *. destruct (D eq_refl) as (g & q & Fg & Lg & Me).
    rewrite sub_ix_ok by lia. cbn [bind]. eapply oks_bind.
    + eapply destroy_ok with (p := flat fw A ++ LWs (map fw (pdiff Z.eqb fv es vs))) (m := g) (s := repeat LN k ++ flat fw B ++ repeat LN q); [|  |auto|exact Fg].
      * eapply mem_cast; [exact Me|]. rewrite <- !app_assoc. reflexivity.
      * rewrite app_length, !map_length, !flat_length. lia.
    + intros b Mb. apply oks_ok. cbn [fst snd rows ncols]. split; [exact El|]. split; [reflexivity|].
      split; [exact I'|]. split; [exact Lv|]. intros _. apply row_lay with (q := q).
      eapply mem_cast; [exact Mb|]. rewrite <- !app_assoc. do 2 f_equal. rewrite !app_assoc, <- repeat_app_add. do 3 f_equal. unfold es'. lia.
Qed.

(** ** On vectors of maps *)
Definition mranged nc M : Prop := forall S x, In S M -> has S x -> in_range nc x.
Definition mrep p (st : mat_state W) : Prop := rep (rows p) (fst st) /\ ncols p = snd st /\ mranged (snd st) (fst st).
Lemma mranged_at nc M i S : mranged nc M -> nth_error M i = Some S -> forall x, has S x -> in_range nc x.
Proof. intros R N x Sx. eapply R; [eapply nth_error_In; eauto|auto]. Qed.
Lemma mranged_put nc M i S : mranged nc M -> (forall x, has S x -> in_range nc x) -> mranged nc (put_at M i S).
Proof.
  intros R H S' x I. unfold put_at in I. apply in_app_iff in I. destruct I as [I|[<-|I]]; auto.
  - apply R. eapply in_firstn; eauto.
  - apply R. eapply in_skipn; eauto.
Qed.
Lemma row_le es k (S : row_map) nc : rowset (es, k) S -> (forall c, has S c -> in_range nc c) -> length es <= nc.
Proof.
  intros [I R] H. simpl in *. rewrite <- (map_length fv).
  assert (C : cardinal (fun c => In c (map fv es)) (length (map fv es))).
  { exists (map fv es). split; [exact (pincr_nodup_keys zorder I)|]. split; [reflexivity|auto]. }
  eapply in_range_card; [|exact C]. intros c Hc. apply H. apply in_map_iff in Hc. destruct Hc as ([c' w] & <- & Hw).
  exists w. apply R. exact Hw.
Qed.
Definition inserted (S : row_map) (ws : list P) : row_map := fun e => S e \/ (In e ws /\ ~ has S (fst e)).
Definition removed (S : row_map) (vs : list Z) : row_map := fun e => S e /\ ~ In (fst e) vs.
Lemma has_iff (S : row_map) c : (exists y : P, S y /\ fst y = c) <-> has S c.
Proof. split; [intros ([c' w] & H & <-); exists w; exact H|intros [w H]; exists (c, w); auto]. Qed.
Lemma rowset_ins es k k' S ws : rowset (es, k) S -> pincr ws -> rowset (fold_right pins es ws, k') (inserted S ws).
Proof.
  intros R I. eapply rowset_ext; [exact (rowset_inserts zorder k' R I)|]. intros e. unfold inserted.
  split; (intros [?|[? Q]]; [auto|right; split; auto; intros K; apply Q; apply has_iff; exact K]).
Qed.
Lemma rowset_rem es k k' S vs : rowset (es, k) S -> rowset (pdiff Z.eqb fv es vs, k') (removed S vs).
Proof. intros R. exact (rowset_diff zorder k' vs R). Qed.
Lemma inserted_range S ws nc : (forall c, has S c -> in_range nc c) -> Forall (in_range nc) (map fst ws) -> forall c, has (inserted S ws) c -> in_range nc c.
Proof.
  intros G F c [w [H|[H _]]]; [apply G; exists w; auto|]. rewrite Forall_forall in F. apply F. apply in_map_iff. exists (c, w). auto.
Qed.
Definition mplus (r : nat) (S S' : row_map) : Prop := forall n n', cardinal S n -> cardinal S' n' -> n' = n + r.
Lemma rowset_mplus es k es' k' S S' r : rowset (es, k) S -> rowset (es', k') S' -> length es' = length es + r -> mplus r S S'.
Proof.
  intros R R' E n n' C C'. pose proof (rowset_len zorder R C). pose proof (rowset_len zorder R' C'). simpl in *. lia.
Qed.

Lemma keys_incr (ws : list P) : increasing Z.ltb (map fst ws) -> pincr ws.
Proof.
  intros I. apply increasing_strong in I. induction ws as [|w ws IH]; [constructor|]. cbn [map] in I. inversion I; subst.
  constructor; [auto|]. rewrite Forall_map in *. auto.
Qed.
Lemma pin1 w es : fold_right pins es [w] = pins w es. Proof. reflexivity. Qed.
Lemma absent1 es w : absent Z.eqb fv es [w] = if present Z.eqb fv es (fst w) then 0 else 1.
Proof. unfold absent. simpl. destruct (present Z.eqb fv es (fst w)); reflexivity. Qed.

Lemma grown_enough p nc es k S ws : ncols p = nc -> rowset (es, k) S -> (forall c, has S c -> in_range nc c) ->
  pincr ws -> Forall (in_range nc) (map fst ws) ->
  length es + absent Z.eqb fv es ws <= grown p es k (absent Z.eqb fv es ws).
Proof.
  intros E R G I F. pose proof (rowset_ins 0 R I) as R'. pose proof (row_le R' (inserted_range G F)) as L.
  rewrite (@pinserts_length Z P Z.ltb Z.eqb fv zorder ws es) in L by (auto; apply R).
  unfold grown, clamp. rewrite E. destruct (Nat.ltb_spec (length es + k) (length es + absent Z.eqb fv es ws)); [|lia].
  destruct (Nat.ltb_spec nc (2 * (length es + absent Z.eqb fv es ws))); lia.
Qed.

Lemma insert_rep p M nc i S w : mrep p (M, nc) -> nth_error M i = Some S -> in_range nc (fst w) ->
  okb tw (crs_insertNonZero chk tw kind p i (fst w) (snd w))
    (fun r => mrep (fst r) (put_at M i (inserted S [w]), nc) /\ mplus (flag (snd r)) S (inserted S [w])).
Proof.
  intros ((L & H & F) & E & G) N Hw. cbn [fst snd] in *. pose proof (mranged_at G N) as GS.
  destruct (f2_at F N) as (A & es & k & B & EL & <- & R & Pt). rewrite EL in H. pose proof R as [I _]. pose proof H as [Ia _]. simpl in I.
  assert (Iw : pincr [w]) by repeat constructor. assert (Fw : Forall (in_range nc) (map fst [w])) by (simpl; auto).
  unfold crs_insertNonZero, numNonZeros, nonZeroCapacity. rewrite (row_size chk Ia). cbn [bind]. rewrite (row_capacity chk Ia). cbn [bind].
  unfold with_rows. eapply okb_bind.
  - eapply ins_row with (C := grown p es k (absent Z.eqb fv es [w])); [exact H|exact I|reflexivity|]. cbn zeta. rewrite <- absent1.
    apply owner_inc; [exact H|]. eapply grown_enough; eauto.
  - intros [a r] [Er H']. left. apply oks_ok. cbn [fst snd] in *. split.
    + split; [|split; [exact E|apply mranged_put; auto; apply inserted_range; auto]].
      eexists. split; [exact H'|]. apply Pt. rewrite <- pin1. eapply rowset_ins; eauto.
    + eapply rowset_mplus; [exact R|exact (rowset_ins 0 R Iw)|]. rewrite pin1.
      rewrite (@pinsert_length Z P Z.ltb Z.eqb fv zorder w es) by exact I. rewrite Er. destruct (present Z.eqb fv es (fst w)); reflexivity.
Qed.
Lemma inserts_rep p M nc i S ws : mrep p (M, nc) -> nth_error M i = Some S -> increasing Z.ltb (map fst ws) -> Forall (in_range nc) (map fst ws) ->
  okb tw (crs_insertNonZeros chk tw kind p i (map fst ws) (map snd ws))
    (fun r => mrep (fst r) (put_at M i (inserted S ws), nc) /\ mplus (snd r) S (inserted S ws)).
Proof.
  intros ((L & H & F) & E & G) N Iw Fw. cbn [fst snd] in *. pose proof (mranged_at G N) as GS.
  destruct (f2_at F N) as (A & es & k & B & EL & <- & R & Pt). rewrite EL in H. pose proof R as [I _]. pose proof H as [Ia _]. simpl in I.
  apply keys_incr in Iw.
  unfold crs_insertNonZeros, numNonZeros, nonZeroCapacity. rewrite (row_size chk Ia). cbn [bind]. rewrite (row_capacity chk Ia). cbn [bind].
  unfold with_rows. eapply okb_bind.
  - eapply inss_row with (C := grown p es k (absent Z.eqb fv es ws)); [exact H|exact I|exact Iw|reflexivity|]. cbn zeta.
    apply owner_inc; [exact H|]. eapply grown_enough; eauto.
  - intros [a r] [Er H']. left. apply oks_ok. cbn [fst snd] in *. split.
    + split; [|split; [exact E|apply mranged_put; auto; apply inserted_range; auto]].
      eexists. split; [exact H'|]. apply Pt. eapply rowset_ins; eauto.
    + eapply rowset_mplus; [exact R|exact (rowset_ins 0 R Iw)|].
      rewrite (@pinserts_length Z P Z.ltb Z.eqb fv zorder ws es) by auto. rewrite Er. reflexivity.
Qed.

(** Through a view: no growth; columns are not checked at all. *)
Lemma view_insert_rep p M i S w c : rep (rows p) M -> nth_error M i = Some S -> nonZeroCapacity chk p i = Ok c ->
  (forall m, cardinal (inserted S [w]) m -> m <= c) ->
  okb tw (crs_v_insertNonZero chk tw p i (fst w) (snd w))
    (fun r => rep (rows (fst r)) (put_at M i (inserted S [w])) /\ ncols (fst r) = ncols p /\
              mplus (flag (snd r)) S (inserted S [w]) /\ nonZeroCapacity chk (fst r) i = Ok c).
Proof.
  intros (L & H & F) N Ec Hc. destruct (f2_at F N) as (A & es & k & B & EL & <- & R & Pt). rewrite EL in H.
  pose proof R as [I _]. pose proof H as [Ia _]. simpl in I. unfold nonZeroCapacity in *. rewrite (row_capacity chk Ia) in Ec. injection Ec as <-.
  assert (Iw : pincr [w]) by repeat constructor. pose proof (rowset_ins 0 R Iw) as R'.
  pose proof (Hc _ (rowset_card zorder R')) as Le. cbn [fst] in Le. rewrite (@pinserts_length Z P Z.ltb Z.eqb fv zorder [w] es) in Le by auto.
  unfold crs_v_insertNonZero, numNonZeros, nonZeroCapacity. rewrite (row_size chk Ia). cbn [bind]. rewrite (row_capacity chk Ia). cbn [bind].
  rewrite (row_entries Ia). cbn [bind]. unfold with_rows. eapply okb_bind.
  - eapply ins_row with (C := length es + k); [exact H|exact I|reflexivity|]. cbn zeta. rewrite <- absent1.
    left. apply view_inc; [exact H|]. lia.
  - intros [a r] [Er H']. left. apply oks_ok. cbn [fst snd rows ncols] in *. split; [|split; [reflexivity|split]].
    + eexists. split; [exact H'|]. apply Pt. rewrite <- pin1. eapply rowset_ins; eauto.
    + eapply rowset_mplus; [exact R|exact (rowset_ins 0 R Iw)|]. rewrite pin1.
      rewrite (@pinsert_length Z P Z.ltb Z.eqb fv zorder w es) by exact I. rewrite Er. destruct (present Z.eqb fv es (fst w)); reflexivity.
    + destruct H' as [I' _]. rewrite (row_capacity chk I'). rewrite <- pin1. rewrite (@pinserts_length Z P Z.ltb Z.eqb fv zorder [w] es) by auto.
      f_equal. lia.
Qed.
Lemma view_inserts_rep p M i S ws c : rep (rows p) M -> nth_error M i = Some S -> nonZeroCapacity chk p i = Ok c ->
  increasing Z.ltb (map fst ws) -> (forall m, cardinal (inserted S ws) m -> m <= c) ->
  okb tw (crs_v_insertNonZeros chk tw p i (map fst ws) (map snd ws))
    (fun r => rep (rows (fst r)) (put_at M i (inserted S ws)) /\ ncols (fst r) = ncols p /\
              mplus (snd r) S (inserted S ws) /\ nonZeroCapacity chk (fst r) i = Ok c).
Proof.
  intros (L & H & F) N Ec Iw Hc. destruct (f2_at F N) as (A & es & k & B & EL & <- & R & Pt). rewrite EL in H.
  pose proof R as [I _]. pose proof H as [Ia _]. simpl in I. unfold nonZeroCapacity in *. rewrite (row_capacity chk Ia) in Ec. injection Ec as <-.
  apply keys_incr in Iw. pose proof (rowset_ins 0 R Iw) as R'.
  pose proof (Hc _ (rowset_card zorder R')) as Le. cbn [fst] in Le. rewrite (@pinserts_length Z P Z.ltb Z.eqb fv zorder ws es) in Le by auto.
  unfold crs_v_insertNonZeros, numNonZeros, nonZeroCapacity. rewrite (row_size chk Ia). cbn [bind]. rewrite (row_capacity chk Ia). cbn [bind].
  rewrite (row_entries Ia). cbn [bind]. unfold with_rows. eapply okb_bind.
  - eapply inss_row with (C := length es + k); [exact H|exact I|exact Iw|reflexivity|]. cbn zeta.
    left. apply view_inc; [exact H|]. lia.
  - intros [a r] [Er H']. left. apply oks_ok. cbn [fst snd rows ncols] in *. split; [|split; [reflexivity|split]].
    + eexists. split; [exact H'|]. apply Pt. eapply rowset_ins; eauto.
    + eapply rowset_mplus; [exact R|exact (rowset_ins 0 R Iw)|].
      rewrite (@pinserts_length Z P Z.ltb Z.eqb fv zorder ws es) by auto. rewrite Er. reflexivity.
    + destruct H' as [I' _]. rewrite (row_capacity chk I'). rewrite (@pinserts_length Z P Z.ltb Z.eqb fv zorder ws es) by auto. f_equal. lia.
Qed.

Lemma remove_rep p M nc i S v : mrep p (M, nc) -> nth_error M i = Some S ->
  oks (crs_removeNonZero chk tw p i v)
    (fun r => mrep (fst r) (put_at M i (removed S [v]), nc) /\ mplus (flag (snd r)) (removed S [v]) S).
Proof.
  intros ((L & H & F) & E & G) N. cbn [fst snd] in *. pose proof (mranged_at G N) as GS.
  destruct (f2_at F N) as (A & es & k & B & EL & <- & R & Pt). rewrite EL in H. pose proof R as [I _]. pose proof H as [Ia _]. simpl in I.
  unfold crs_removeNonZero, numNonZeros, nonZeroCapacity. rewrite (row_size chk Ia). cbn [bind]. rewrite (row_capacity chk Ia). cbn [bind].
  rewrite (row_entries Ia). cbn [bind]. unfold with_rows. eapply oks_bind; [apply rem_row; [exact H|exact I]|].
  intros [a r] (Er & El & H'). apply oks_ok. cbn [fst snd] in *. split.
  - split; [|split; [exact E|apply mranged_put; auto; intros x [w [Sw _]]; apply GS; exists w; exact Sw]].
    eexists. split; [exact H'|]. apply Pt. eapply rowset_rem; eauto.
  - eapply rowset_mplus; [exact (rowset_rem 0 [v] R)|exact R|exact El].
Qed.
Lemma removes_rep p M nc i S vs : mrep p (M, nc) -> nth_error M i = Some S -> increasing Z.ltb vs ->
  oks (crs_removeNonZeros chk tw p i vs)
    (fun r => mrep (fst r) (put_at M i (removed S vs), nc) /\ mplus (snd r) (removed S vs) S).
Proof.
  intros ((L & H & F) & E & G) N Iv. cbn [fst snd] in *. pose proof (mranged_at G N) as GS.
  destruct (f2_at F N) as (A & es & k & B & EL & <- & R & Pt). rewrite EL in H. pose proof R as [I _]. pose proof H as [Ia _]. simpl in I.
  apply increasing_strong in Iv.
  destruct p as [a nc']. cbn [rows ncols] in *. subst nc'. eapply oks_mono; [exact (rems_row nc H I Iv)|].
  intros [p' r] (El & En & H'). cbn [fst snd] in *. split.
  - split; [|split; [exact En|apply mranged_put; auto; intros x [w [Sw _]]; apply GS; exists w; exact Sw]].
    eexists. split; [exact H'|]. apply Pt. exact (rowset_rem (length es + k - length (pdiff Z.eqb fv es vs)) vs R).
  - eapply rowset_mplus; [exact (rowset_rem 0 vs R)|exact R|exact El].
Qed.
End CRS.
