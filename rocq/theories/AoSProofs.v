(** ArrayOfSets refines a vector of finite sets. *)
From Coq Require Import List Arith ZArith Lia Bool Sorting.Sorted.
From Verif Require Import Base BaseProofs Mem MemProofs ArrayManipProofs BufferManip BufferManipProofs
  Sorted SortedSpec SortedProofs SortedProofs2 SortedProofs3 SortedArraySpec AoA AoASpec AoALayout AoAProofs AoAProofs2 AoAProofs4
  AoS AoSSpec SetsProofs SetsProofs2.
From Verif Require ArrayManip AoAProofs3.
Import ListNotations.
Set Implicit Arguments.
Unset Strict Implicit.

(** Rows without entries. *)
Section Plain.
Variable V W : Type.
Variable fw : V -> W.
Variable chk tv tw : bool.
Variable lt eqb : V -> V -> bool.
Hypothesis T : total_order lt eqb.
Notation kind := BMalloc.
Notation aoa := (aoa V W).
Notation X := (aoa * nat)%type.
Notation idv := (fun v : V => v).
Notation rowset := (@rowset V V idv lt).
Notation rep := (@rep V V W idv fw tv tw false lt).
Notation aok := (@aok V V W idv fw tv tw false).
Notation rx := (@rx V V W idv fw tw false).
Notation pincr l := (StronglySorted (fun x y => lt x y = true) l).
Notation set := (V -> Prop).
Implicit Types a : aoa.
Implicit Types M : list set.

Lemma ids (l : list V) : map idv l = l. Proof. apply map_id. Qed.

Lemma plain_rx Q A es C B p s l l' (x : X) : rx Q A es C B p s l x -> length l' = length l -> rx Q A es C B p s l' x.
Proof.
  intros (q & H1 & H2 & H3 & H4 & H5 & _) E. exists q. rewrite E. repeat (split; [assumption|]). discriminate.
Qed.

Section CB.
(** Any callbacks which only do something in incrementSize. *)
Variable cb : callbacks V X.
Hypothesis EV : forall e x, cb_ev cb e x = Ok x.

Lemma ins_plain a A es k B w C t : aok a (A ++ (es, k) :: B) -> pincr es ->
  (let n := if present eqb idv es w then 0 else 1 in
   okb t (cb_inc cb n (vals a, (a, 0))) (inc_post tv idv (rx (eq LN) A es C B) es n)) ->
  okb t (insertIntoSetImpl chk tv lt eqb cb a 0 (length A) w)
    (fun r => snd r = negb (present eqb idv es w) /\
              aok (fst r) (A ++ (pinsert lt eqb idv w es, C - length (pinsert lt eqb idv w es)) :: B)).
Proof.
  intros H I Hi. eapply okb_mono.
  - apply (@insertSet_ok V V W idv fw chk tv tw false lt eqb T cb a A es k B w 0 t C H I Hi).
    intros p' s' f1 g1 x' -> R. rewrite EV. apply oks_ok. eapply plain_rx; [exact R|]. len.
  - intros r (H1 & _ & H2). auto.
Qed.
Lemma inss_plain a A es k B ws C t : aok a (A ++ (es, k) :: B) -> pincr es -> pincr ws ->
  (let n := absent eqb idv es ws in
   okb t (cb_inc cb n (vals a, (a, 0))) (inc_post tv idv (rx (eq LN) A es C B) es n)) ->
  let es' := fold_right (pinsert lt eqb idv) es ws in
  okb t (insertsIntoSetImpl chk tv lt eqb cb a 0 (length A) ws)
    (fun r => snd r = absent eqb idv es ws /\ aok (fst r) (A ++ (es', C - length es') :: B)).
Proof.
  intros H I Iw Hi es'. eapply okb_mono.
  - pose proof (@insertsSet_ok V V W idv fw chk tv tw false lt eqb T cb a A es k B ws 0 t C H I Iw Hi) as G.
    rewrite ids in G. apply G.
    + intros _ j w x p' s' f1 g _ _ R. rewrite EV. apply oks_ok. eapply plain_rx; [exact R|]. len.
    + intros j w nl f1 g1 h1 x p' s' _ R. rewrite EV. apply oks_ok. eapply plain_rx; [exact R|]. len.
  - intros r (H1 & _ & H2). auto.
Qed.
Lemma rem_plain a A es k B v : aok a (A ++ (es, k) :: B) -> pincr es ->
  let es' := pdiff eqb idv es [v] in
  oks (removeFromSetImpl chk tv lt eqb cb a 0 (length A) v)
    (fun r => snd r = present eqb idv es v /\ length es = length es' + flag (snd r) /\
              aok (fst r) (A ++ (es', length es + k - length es') :: B)).
Proof.
  intros H I es'. apply (@removeSet_ok V V W idv fw chk tv tw false lt eqb T cb a A es k B v 0 H I); [discriminate|].
  intros p s f1 e g1 x' -> _ R. rewrite EV. apply oks_ok. eapply plain_rx; [exact R|]. len.
Qed.
Lemma rems_plain a A es k B vs : aok a (A ++ (es, k) :: B) -> pincr es -> pincr vs ->
  let es' := pdiff eqb idv es vs in
  oks (removesFromSetImpl chk tv lt eqb cb a 0 (length A) vs)
    (fun r => length es = length es' + snd r /\ aok (fst r) (A ++ (es', length es + k - length es') :: B)).
Proof.
  intros H I Iv es'. eapply oks_mono.
  - apply (@removesSet_ok V V W idv fw chk tv tw false lt eqb T cb a A es k B vs 0 H I Iv); [discriminate|].
    intros p s f1 g1 e n x' R g2 g3 ->. rewrite EV. apply oks_ok. eapply plain_rx; [exact R|]. unfold gaps. len.
  - intros r (H1 & H2 & H3 & _). split; auto. split; auto. split; auto. discriminate.
Qed.
End CB.

(** ** On vectors of sets *)
Definition plus (r : nat) (S S' : set) : Prop := forall n n', cardinal S n -> cardinal S' n' -> n' = n + r.
Definition sum_set (S : set) vs : set := fun x => In x vs \/ S x.
Definition diff_set (S : set) vs : set := fun x => S x /\ ~ In x vs.

Lemma dec (S : set) l x : (forall y, In y l <-> S y) -> S x \/ ~ S x.
Proof.
  intros H. destruct (present eqb idv l x) eqn:E.
  - left. apply H. apply (present_in idv T) in E. rewrite ids in E. exact E.
  - right. intros K. apply H in K. assert (present eqb idv l x = true) by (apply (present_in idv T); rewrite ids; auto). congruence.
Qed.
Lemma rowset_sum es k k' S vs : rowset (es, k) S -> pincr vs -> rowset (fold_right (pinsert lt eqb idv) es vs, k') (sum_set S vs).
Proof.
  intros R Iv. eapply rowset_ext; [eapply rowset_inserts; eauto|]. intros x. unfold sum_set. destruct R as [_ R].
  destruct (dec x R) as [D|D].
  - tauto.
  - split; [tauto|]. intros [H|H]; [|auto]. right. split; auto. intros (y & Hy & <-). auto.
Qed.
Lemma rowset_sum1 es k k' S v : rowset (es, k) S -> rowset (pinsert lt eqb idv v es, k') (sum_set S [v]).
Proof. intros R. apply (@rowset_sum es k k' S [v] R). repeat constructor. Qed.
Lemma rowset_sub es k k' S vs : rowset (es, k) S -> rowset (pdiff eqb idv es vs, k') (diff_set S vs).
Proof. intros R. eapply rowset_diff; eauto. Qed.

Lemma absent1 es v : absent eqb idv es [v] = if present eqb idv es v then 0 else 1.
Proof. unfold absent. simpl. destruct (present eqb idv es v); reflexivity. Qed.

Lemma rowset_plus es k es' k' S S' r : rowset (es, k) S -> rowset (es', k') S' -> length es' = length es + r -> plus r S S'.
Proof.
  intros R R' E n n' C C'. pose proof (rowset_len T R C). pose proof (rowset_len T R' C'). simpl in *. lia.
Qed.

Lemma pinsert_len v es : pincr es -> length (pinsert lt eqb idv v es) = length es + (if present eqb idv es v then 0 else 1).
Proof. intros I. exact (@pinsert_length V V lt eqb idv T v es I). Qed.
Lemma pinserts_len es vs : pincr es -> pincr vs -> length (fold_right (pinsert lt eqb idv) es vs) = length es + absent eqb idv es vs.
Proof. intros I Iv. exact (@pinserts_length V V lt eqb idv T vs es I Iv). Qed.

Section Grow.
Variable newCap : nat -> nat.
Notation gcb := (grow_cb V W chk tv tw false kind newCap).

Lemma rep_insert a M i S v : rep a M -> nth_error M i = Some S ->
  (forall m, cardinal (sum_set S [v]) m -> m <= newCap m) ->
  okb tv (insertIntoSetImpl chk tv lt eqb (gcb i) a 0 i v)
    (fun r => rep (fst r) (put_at M i (sum_set S [v])) /\ plus (flag (snd r)) S (sum_set S [v])).
Proof.
  intros (L & H & F) N HC. destruct (f2_at F N) as (A & es & k & B & -> & <- & R & Pt). pose proof R as [I _].
  assert (Es : length (pinsert lt eqb idv v es) = length es + (if present eqb idv es v then 0 else 1)) by exact (pinsert_len v I).
  apply (okb_cast (AoAProofs3.allt_tv tv tw)). apply okb_or_l with (c := nogap (A ++ (es, k) :: B)).
  eapply okb_mono.
  - eapply ins_plain with (cb := gcb (length A)); [reflexivity|exact H|exact I|].
    cbn zeta. apply grow_inc_ok; [exact H|discriminate|]. intros _. rewrite <- Es. apply HC.
    apply (@rowset_card V V idv lt eqb T (pinsert lt eqb idv v es, 0)). eapply rowset_sum1; eauto.
  - intros [a' r] [E H']. cbn [fst snd] in *. split.
    + eexists. split; [exact H'|]. apply Pt. eapply rowset_sum1; eauto.
    + eapply rowset_plus; [exact R|apply (@rowset_sum1 es k 0 S v R)|]. rewrite Es, E. destruct (present eqb idv es v); reflexivity.
Qed.
Lemma rep_inserts a M i S vs : rep a M -> nth_error M i = Some S -> pincr vs ->
  (forall m, cardinal (sum_set S vs) m -> m <= newCap m) ->
  okb tv (insertsIntoSetImpl chk tv lt eqb (gcb i) a 0 i vs)
    (fun r => rep (fst r) (put_at M i (sum_set S vs)) /\ plus (snd r) S (sum_set S vs)).
Proof.
  intros (L & H & F) N Iv HC. destruct (f2_at F N) as (A & es & k & B & -> & <- & R & Pt). pose proof R as [I _].
  assert (Es : length (fold_right (pinsert lt eqb idv) es vs) = length es + absent eqb idv es vs) by exact (pinserts_len I Iv).
  apply (okb_cast (AoAProofs3.allt_tv tv tw)). apply okb_or_l with (c := nogap (A ++ (es, k) :: B)).
  eapply okb_mono.
  - eapply inss_plain with (cb := gcb (length A)); [reflexivity|exact H|exact I|exact Iv|].
    cbn zeta. apply grow_inc_ok; [exact H|discriminate|]. intros _. rewrite <- Es. apply HC.
    apply (@rowset_card V V idv lt eqb T (fold_right (pinsert lt eqb idv) es vs, 0)). eapply rowset_sum; eauto.
  - intros [a' r] [E H']. cbn [fst snd] in *. split.
    + eexists. split; [exact H'|]. apply Pt. eapply rowset_sum; eauto.
    + eapply rowset_plus; [exact R|apply (@rowset_sum es k 0 S vs R Iv)|]. rewrite Es, E. reflexivity.
Qed.
End Grow.

Notation vcb := (view_cb V W chk).
Lemma rep_remove a M i S v : rep a M -> nth_error M i = Some S ->
  oks (removeFromSetImpl chk tv lt eqb (vcb i) a 0 i v)
    (fun r => rep (fst r) (put_at M i (diff_set S [v])) /\ plus (flag (snd r)) (diff_set S [v]) S).
Proof.
  intros (L & H & F) N. destruct (f2_at F N) as (A & es & k & B & -> & <- & R & Pt). pose proof R as [I _].
  eapply oks_mono; [apply rem_plain; [reflexivity|exact H|exact I]|].
  intros [a' r] (E & El & H'). cbn [fst snd] in *. split.
  - eexists. split; [exact H'|]. apply Pt. eapply rowset_sub; eauto.
  - eapply rowset_plus; [apply (@rowset_sub es k 0 S [v] R)|exact R|exact El].
Qed.
Lemma rep_removes a M i S vs : rep a M -> nth_error M i = Some S -> pincr vs ->
  oks (removesFromSetImpl chk tv lt eqb (vcb i) a 0 i vs)
    (fun r => rep (fst r) (put_at M i (diff_set S vs)) /\ plus (snd r) (diff_set S vs) S).
Proof.
  intros (L & H & F) N Iv. destruct (f2_at F N) as (A & es & k & B & -> & <- & R & Pt). pose proof R as [I _].
  eapply oks_mono; [apply rems_plain; [reflexivity|exact H|exact I|exact Iv]|].
  intros [a' r] (El & H'). cbn [fst snd] in *. split.
  - eexists. split; [exact H'|]. apply Pt. eapply rowset_sub; eauto.
  - eapply rowset_plus; [apply (@rowset_sub es k 0 S vs R)|exact R|exact El].
Qed.

(** The view's insertions: no growth. *)
Lemma view_inc_ok a A es k B n : aok a (A ++ (es, k) :: B) -> n <= k ->
  oks (cb_inc (vcb (length A)) n (vals a, (a, 0))) (inc_post tv idv (rx (eq LN) A es (length es + k) B) es n).
Proof.
  intros H Hn. pose proof H as [I [Ev Ee]]. cbn [cb_inc view_cb].
  assert (Ea : set_vals (vals a) a = a) by (destruct a; reflexivity). rewrite Ea.
  rewrite (row_values idv chk I), (row_size chk I), (row_capacity chk I). cbn [bind].
  replace (if chk then error_if (length es + k <? length es + n) else Ok tt) with (Ok tt).
  - cbn [bind]. apply oks_ok. cbn. destruct (lay_row Ev) as [q Mm].
    exists (flat idv A), (repeat LN (k - n) ++ flat idv B ++ repeat LN q). split; auto. split.
    + eapply mem_cast; [exact Mm|]. do 2 f_equal. rewrite !app_assoc, <- repeat_app_add. do 3 f_equal. lia.
    + exists q. rewrite app_length, map_length, repeat_length.
      replace (length es + k - (length es + n)) with (k - n) by lia.
      replace (length es + k - length es) with k by lia.
      split; auto. split; auto. split; [lia|]. split; [lia|]. split; [exact I|discriminate].
  - destruct chk; auto. unfold error_if. destruct (Nat.ltb_spec (length es + k) (length es + n)); [lia|auto].
Qed.
Lemma view_insert a M i S v c : rep a M -> nth_error M i = Some S -> capacityOfArray chk a i = Ok c ->
  (forall m, cardinal (sum_set S [v]) m -> m <= c) ->
  oks (v_insertIntoSet chk tv lt eqb a i v)
    (fun r => rep (fst r) (put_at M i (sum_set S [v])) /\ plus (flag (snd r)) S (sum_set S [v]) /\ capacityOfArray chk (fst r) i = Ok c).
Proof.
  intros (L & H & F) N Ec HC. destruct (f2_at F N) as (A & es & k & B & -> & <- & R & Pt). pose proof R as [I _]. pose proof H as [Ia _].
  rewrite (row_capacity chk Ia) in Ec. injection Ec as <-.
  assert (Es : length (pinsert lt eqb idv v es) = length es + (if present eqb idv es v then 0 else 1)) by exact (pinsert_len v I).
  assert (Le : length (pinsert lt eqb idv v es) <= length es + k).
  { apply HC. apply (@rowset_card V V idv lt eqb T (pinsert lt eqb idv v es, 0)). eapply rowset_sum1; eauto. }
  apply okb_true. eapply okb_mono.
  - eapply ins_plain with (cb := vcb (length A)); [reflexivity|exact H|exact I|]. cbn zeta. left. apply view_inc_ok; [exact H|]. lia.
  - intros [a' r] [E H']. cbn [fst snd] in *. split; [|split].
    + eexists. split; [exact H'|]. apply Pt. eapply rowset_sum1; eauto.
    + eapply rowset_plus; [exact R|apply (@rowset_sum1 es k 0 S v R)|]. rewrite Es, E. destruct (present eqb idv es v); reflexivity.
    + destruct H' as [I' _]. rewrite (row_capacity chk I'). f_equal. lia.
Qed.
Lemma view_inserts a M i S vs c : rep a M -> nth_error M i = Some S -> pincr vs -> capacityOfArray chk a i = Ok c ->
  (forall m, cardinal (sum_set S vs) m -> m <= c) ->
  oks (v_insertsIntoSet chk tv lt eqb a i vs)
    (fun r => rep (fst r) (put_at M i (sum_set S vs)) /\ plus (snd r) S (sum_set S vs) /\ capacityOfArray chk (fst r) i = Ok c).
Proof.
  intros (L & H & F) N Iv Ec HC. destruct (f2_at F N) as (A & es & k & B & -> & <- & R & Pt). pose proof R as [I _]. pose proof H as [Ia _].
  rewrite (row_capacity chk Ia) in Ec. injection Ec as <-.
  assert (Es : length (fold_right (pinsert lt eqb idv) es vs) = length es + absent eqb idv es vs) by exact (pinserts_len I Iv).
  assert (Le : length (fold_right (pinsert lt eqb idv) es vs) <= length es + k).
  { apply HC. apply (@rowset_card V V idv lt eqb T (fold_right (pinsert lt eqb idv) es vs, 0)). eapply rowset_sum; eauto. }
  apply okb_true. eapply okb_mono.
  - eapply inss_plain with (cb := vcb (length A)); [reflexivity|exact H|exact I|exact Iv|]. cbn zeta. left. apply view_inc_ok; [exact H|]. lia.
  - intros [a' r] [E H']. cbn [fst snd] in *. split; [|split].
    + eexists. split; [exact H'|]. apply Pt. eapply rowset_sum; eauto.
    + eapply rowset_plus; [exact R|apply (@rowset_sum es k 0 S vs R Iv)|]. rewrite Es, E. reflexivity.
    + destruct H' as [I' _]. rewrite (row_capacity chk I'). f_equal. lia.
Qed.

Lemma rep_clear dflt a M i S : rep a M -> nth_error M i = Some S ->
  oks (clearSet chk tv dflt a i) (fun a' => rep a' (put_at M i none)).
Proof.
  intros (L & H & F) N. destruct (f2_at F N) as (A & es & k & B & -> & <- & R & Pt). pose proof H as [I [Ev _]].
  unfold clearSet. rewrite (row_check chk I). cbn [bind]. rewrite (row_size chk I). cbn [bind]. rewrite (row_values idv chk I). cbn [bind].
  destruct (lay_row Ev) as [q Mm]. rewrite ids in Mm.
  eapply oks_bind.
  - eapply resize_shrink_ok with (p := flat idv A) (vs := []) (ws := es) (s := repeat LN k ++ flat idv B ++ repeat LN q); simpl; eauto.
  - intros b Mb. simpl in Mb. eapply oks_mono.
    + eapply (@AoAProofs3.row_put V W tv tw fw a A es k B [] (length es + k) b q); [exact I| |reflexivity|reflexivity].
      simpl. eapply mem_cast; [exact Mb|]. rewrite repeat_app_add, <- !app_assoc. reflexivity.
    + intros a' H'. eexists. split; [exact H'|]. apply Pt. apply rowset_nil.
Qed.

(** ** Histories of an ArrayOfSets *)
Variable dflt : V.
Notation tstep := (tstep chk tv tw false kind lt eqb dflt).
Notation trun := (trun chk tv tw false kind lt eqb dflt).
Definition tbad {Y} (m : outcome Y) : Prop := badb tv m.

Lemma okb_void M' m (c : tcall V) M : okb tv m (fun a' => rep a' M') -> treturns c M M' 0 ->
  okb tv (void m) (fun r => rep (fst r) M' /\ treturns c M M' (snd r)).
Proof. intros H K. unfold void. eapply okb_bind; [exact H|]. intros a' R. left. apply oks_ok. auto. Qed.
Lemma void_bad (m : outcome aoa) : badb tv m -> badb tv (void m).
Proof. intros [->|[E ->]]; [left|right]; auto. Qed.

Lemma nth_put {Y} (l : list Y) i x y : nth_error l i = Some x -> nth_error (put_at l i y) i = Some y.
Proof. intros N. apply nth_error_split in N. destruct N as (l1 & l2 & -> & <-). rewrite put_mid by auto. rewrite nth_error_app2, Nat.sub_diag by lia. reflexivity. Qed.

Lemma rep_cast a M M' : rep a M -> Forall2 (fun S S' => forall x, S x <-> S' x) M M' -> rep a M'.
Proof.
  intros (L & H & F) G. exists L. split; auto. clear H. revert M' G. induction F; intros M' G; inversion G; subst; constructor; auto.
  eapply rowset_ext; eauto.
Qed.
Lemma put_ext M i S S' : (forall x, S x <-> S' x) -> Forall2 (fun S S' => forall x, S x <-> S' x) (put_at M i S) (put_at M i S').
Proof.
  intros H. assert (Rf : forall M, Forall2 (fun S S' : set => forall x, S x <-> S' x) M M) by (induction M0; constructor; auto; intros x; split; exact (fun h => h)).
  unfold put_at. apply Forall2_app; auto.
Qed.

Lemma tstep_ok c a M : rep a M -> tallowed lt c ->
  match set_step lt c M with
  | Some M' => okb tv (tstep c a) (fun r => rep (fst r) M' /\ treturns c M M' (snd r))
  | None => chk = true -> badb tv (tstep c a)
  end.
Proof.
  pose proof (AoAProofs3.allt_tv tv tw) as AT. intros R Al. pose proof R as (L & H & F). pose proof (f2_len F) as LL.
  assert (Bad : forall i, chk = true -> nth_error M i = None -> check_array chk a i = Abort) by (intros; eapply bad_check; eauto).
  destruct c as [n cap|caps|n|n| |cap|i cap|i|i v|i vs|i v|i vs|i|i c|i c]; cbn [set_step AoS.tstep]; unfold on_elem.
  - apply okb_void; [|reflexivity]. apply (okb_cast AT). apply rep_resize. exact R.
  - apply okb_void; [|reflexivity]. left. eapply rep_resizeFrom. exact R.
  - apply okb_void; [|reflexivity]. left. apply rep_reserve. exact R.
  - apply okb_void; [|reflexivity]. apply (okb_cast AT). apply rep_reserveValues. exact R.
  - apply okb_void; [|reflexivity]. left. apply rep_compress. exact R.
  - apply okb_void; [|reflexivity]. apply (okb_cast AT). apply rep_append. exact R.
  - destruct (Nat.leb_spec i (length M)) as [Hi|Hi].
    + apply okb_void; [|reflexivity]. apply (okb_cast AT). apply rep_insertSet; auto.
    + intros C. apply void_bad. left. unfold insertSet, open_array. rewrite (bad_insert C R Hi). reflexivity.
  - destruct (Nat.ltb_spec i (length M)) as [Hi|Hi].
    + apply okb_void; [|reflexivity]. apply (okb_cast AT). apply rep_eraseSet; auto.
    + intros C. apply void_bad. left. unfold eraseSet, eraseArray. rewrite (Bad i C); auto. apply nth_error_None; auto.
  - destruct (nth_error M i) as [S|] eqn:N.
    + eapply okb_bind; [apply rep_insert; [exact R|exact N|intros; lia]|]. intros [a' r] [R' Pl]. left. apply oks_ok. cbn [fst snd] in *. split.
      * eapply rep_cast; [exact R'|]. apply put_ext. unfold sum_set. simpl. intros x. intuition.
      * simpl. intros S0 S' m m' N0 N' C C'. rewrite N in N0. injection N0 as <-. rewrite (nth_put _ N) in N'. injection N' as <-.
        apply Pl; auto. destruct C' as (l & Nd & Hl & Len). exists l. split; auto. split; auto. intros x. rewrite Hl. unfold sum_set. simpl. intuition.
    + intros C. left. unfold insertIntoSet, insertIntoSetImpl. rewrite (Bad i C N). reflexivity.
  - destruct (nth_error M i) as [S|] eqn:N.
    + cbn in Al. apply increasing_strong in Al.
      eapply okb_mono; [apply rep_inserts; [exact R|exact N|exact Al|intros; lia]|]. intros [a' r] [R' Pl]. cbn [fst snd] in *. split; [exact R'|].
      simpl. intros S0 S' m m' N0 N' C C'. rewrite N in N0. injection N0 as <-. rewrite (nth_put _ N) in N'. injection N' as <-. apply Pl; auto.
    + intros C. left. unfold insertsIntoSet, insertsIntoSetImpl. rewrite (Bad i C N). reflexivity.
  - destruct (nth_error M i) as [S|] eqn:N.
    + left. eapply oks_bind; [apply rep_remove; [exact R|exact N]|]. intros [a' r] [R' Pl]. apply oks_ok. cbn [fst snd] in *. split.
      * eapply rep_cast; [exact R'|]. apply put_ext. unfold diff_set. simpl. intros x. intuition.
      * simpl. intros S0 S' m m' N0 N' C C'. rewrite N in N0. injection N0 as <-. rewrite (nth_put _ N) in N'. injection N' as <-.
        apply Pl; auto. destruct C' as (l & Nd & Hl & Len). exists l. split; auto. split; auto. intros x. rewrite Hl. unfold diff_set. simpl. intuition.
    + intros C. left. unfold removeFromSet, removeFromSetImpl. rewrite (Bad i C N). reflexivity.
  - destruct (nth_error M i) as [S|] eqn:N.
    + cbn in Al. apply increasing_strong in Al. left.
      eapply oks_mono; [apply rep_removes; [exact R|exact N|exact Al]|]. intros [a' r] [R' Pl]. cbn [fst snd] in *. split; [exact R'|].
      simpl. intros S0 S' m m' N0 N' C C'. rewrite N in N0. injection N0 as <-. rewrite (nth_put _ N) in N'. injection N' as <-. apply Pl; auto.
    + intros C. left. unfold removesFromSet, removesFromSetImpl. rewrite (Bad i C N). reflexivity.
  - destruct (nth_error M i) as [S|] eqn:N.
    + apply okb_void; [|reflexivity]. left. eapply rep_clear; eauto.
    + intros C. apply void_bad. left. unfold clearSet. rewrite (Bad i C N). reflexivity.
  - destruct (nth_error M i) as [S|] eqn:N.
    + apply okb_void; [|reflexivity]. apply (okb_cast AT). eapply rep_setCapacity; eauto.
    + intros C. apply void_bad. left. unfold setCapacityOfArray. rewrite (Bad i C N). reflexivity.
  - destruct (nth_error M i) as [S|] eqn:N.
    + apply okb_void; [|reflexivity]. apply (okb_cast AT). rewrite (f2_same N). eapply rep_reserveCapacity; eauto.
    + intros C. apply void_bad. left. unfold reserveCapacityOfSet. rewrite (Bad i C N). reflexivity.
Qed.

Lemma trun_ok h : forall a M, rep a M -> Forall (tallowed lt) h ->
  match set_run lt h M with
  | Some M' => okb tv (trun h a) (fun a' => rep a' M')
  | None => chk = true -> badb tv (trun h a)
  end.
Proof.
  induction h as [|c h IH]; intros a M R F; cbn [set_run AoS.trun]; [left; apply oks_ok; exact R|].
  pose proof (tstep_ok R (Forall_inv F)) as St. apply Forall_inv_tail in F. destruct (set_step lt c M) as [M1|].
  - destruct St as [([a1 r] & E & R1 & _)|[Tf E]]; rewrite E; cbn [bind].
    + apply IH; auto.
    + destruct (set_run lt h M1); [right|intros _; right]; auto.
  - intros C. destruct (St C) as [E|[Tf E]]; rewrite E; cbn [bind]; [left|right]; auto.
Qed.
End Plain.
