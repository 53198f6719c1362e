(** The calls of CRSOwn.v on one row. *)
From Coq Require Import List Arith ZArith Lia Bool Sorting.Sorted.
From Verif Require Import Base BaseProofs Mem MemProofs ArrayManipProofs BufferManip BufferManipProofs
  Sorted SortedSpec SortedProofs SortedProofs2 SortedProofs3 SortedArraySpec AoA AoASpec AoALayout AoAProofs AoAProofs2 AoAProofs4
  AoS AoSSpec SetsProofs SetsProofs2 Sparsity SparsitySpec SparsityProofs CRS CRSSpec CRSProofs CRSProofs2 OwnRange OwnRangeProofs SortedOwn SortedOwnProofs CRSOwn CRSOwnProofs.
From Verif Require ArrayManip OwnRangeProofs2 SortedOwnProofs2.
Import ListNotations.
Set Implicit Arguments.
Unset Strict Implicit.

(** insert( first, last ) when nothing is new *)
Lemma inserts_none V X chk triv (lt eqb : V -> V -> bool) (T : total_order lt eqb) (cb : callbacks V X) (b : buf V) x p s es vs :
  mem triv b (p ++ map (@LV V) es ++ s) -> StronglySorted (fun x y => lt x y = true) es -> StronglySorted (fun x y => lt x y = true) vs ->
  absent eqb (fun v => v) es vs = 0 ->
  inserts chk triv lt eqb cb b x (length p) (length es) vs = ('(b1, x1, _) <- cb_inc cb 0 (b, x) ;; Ok (b1, x1, 0)).
Proof.
  intros M I Iv A0. unfold inserts. destruct (Nat.eqb_spec (length es) 0) as [E0|E0].
  - destruct es; [|discriminate]. rewrite absent_nil in A0. destruct vs; [|discriminate]. cbn [length].
    destruct (cb_inc cb 0 (b, x)) as [[[b1 x1] np]| |]; reflexivity.
  - assert (M' : mem triv b (p ++ map (@LV V) (map (fun v : V => v) es) ++ s)) by (rewrite map_id; exact M).
    assert (C := @count_loop_ok V V unit triv lt eqb (fun v => v) T (fun _ _ _ _ => True) b p s es (length p) (length es) M' I eq_refl eq_refl (rev vs) es [] 0).
    rewrite map_id, rev_involutive in C. specialize (C Iv (eq_sym (app_nil_r _)) (fun w _ => Forall_nil _)). cbn [plus] in C. rewrite C, A0. cbn [bind Nat.eqb].
    reflexivity.
Qed.

Section Own.
Variable W : Type.
Variable chk tw : bool.
Notation kind := BMalloc.
Notation aoa := (aoa Z W).
Notation X := (aoa * nat)%type.
Notation matrix := (pattern W).
Notation P := (Z * W)%type.
Notation fv := (@fst Z W).
Notation fw := (@snd Z W).
Notation row := (list P * nat)%type.
Notation rows_t := (list row).
Notation aok := (@aok P Z W fv fw true tw true).
Notation iok := (@iok P Z W).
Notation rx := (@rx P Z W fv fw tw true).
Notation pincr l := (StronglySorted (fun x y => (fst x <? fst y)%Z = true) l).
Notation pins := (pinsert Z.ltb Z.eqb fv).
Notation absent := (absent Z.eqb fv).
Notation present := (present Z.eqb fv).
Notation safe := (@safe W).
Implicit Types a : aoa.
Implicit Types A B L : rows_t.
Implicit Types p : matrix.

Lemma absent_keys (es ws : list P) : SortedProofs2.absent Z.eqb (fun v => v) (map fst es) (map fst ws) = absent es ws.
Proof.
  unfold SortedProofs2.absent. induction ws as [|w ws IH]; [reflexivity|]. cbn [map filter].
  assert (Pr : SortedProofs2.present Z.eqb (fun v => v) (map fst es) (fst w) = present es (fst w)).
  { unfold SortedProofs2.present. clear. induction es as [|e es IH]; [reflexivity|]. cbn. rewrite IH. reflexivity. }
  rewrite Pr. destruct (negb _); cbn [length]; rewrite IH; reflexivity.
Qed.
(** ** One element *)
Definition same_insert A es B C q (col : Z) (w : W) : Prop := forall pc s f1 g1 x, es = f1 ++ g1 ->
  Forall (fun e => (fst e <? col)%Z = true) f1 -> Forall (fun e => (col <? fst e)%Z = true) g1 ->
  rx (eq LN) A es C B pc s (map Some es ++ [None]) x ->
  crs_evOwn chk tw (length es) q (EInsert (length f1)) x = crs_ev chk tw (length es) [w] (EInsert (length f1)) x.
Lemma ownins_row t (cb : callbacks Z X) a A es k B q col w C e0 : aok a (A ++ (es, k) :: B) -> pincr es ->
  (forall ev, cb_ev cb ev = crs_evOwn chk tw (length es) q ev) ->
  (let n := if present es col then 0 else 1 in
   okb t (cb_inc cb n (vals a, (a, e0))) (inc_post true fv (rx (eq LN) A es C B) es n)) ->
  same_insert A es B C q col w ->
  okb t (insertIntoSetImpl chk true Z.ltb Z.eqb cb a e0 (length A) col)
    (fun r => snd r = negb (present es col) /\ aok (fst r) (A ++ (pins (col, w) es, C - length (pins (col, w) es)) :: B)).
Proof.
  intros H I EV Hi Hs. eapply okb_mono.
  - apply (@insertSet_ok_at P Z W fv fw chk true tw true Z.ltb Z.eqb zorder cb a A es k B (col, w) e0 t C H I Hi).
    intros p' s' f1 g1 x' E F1 G1 R. rewrite EV, (Hs _ _ _ _ _ E F1 G1 R). subst es. apply (@ev_insert W chk tw A f1 g1 C B p' s' x' (col, w)). exact R.
  - intros r (H1 & _ & H2). auto.
Qed.
(** ** Several elements *)
Definition same_reads A es B C q (ws : list P) : Prop := forall pc s lo x j w, nth_error ws j = Some w ->
  rx (eq LN) A es C B pc s lo x -> safe x (q + j) (fw w) (snd x) (snd x + C).
Lemma owninss_row t (cb : callbacks Z X) a A es k B ws q C e0 : aok a (A ++ (es, k) :: B) -> pincr es -> pincr ws ->
  (forall ev, cb_ev cb ev = crs_evOwn chk tw (length es) q ev) ->
  (let n := absent es ws in
   okb t (cb_inc cb n (vals a, (a, e0))) (inc_post true fv (rx (eq LN) A es C B) es n)) ->
  same_reads A es B C q ws ->
  let es' := fold_right pins es ws in
  okb t (insertsIntoSetImpl chk true Z.ltb Z.eqb cb a e0 (length A) (map fst ws))
    (fun r => snd r = absent es ws /\ aok (fst r) (A ++ (es', C - length es') :: B)).
Proof.
  intros H I Iw EV Hi Hr es'. eapply okb_mono.
  - apply (@insertsSet_ok P Z W fv fw chk true tw true Z.ltb Z.eqb zorder cb a A es k B ws e0 t C H I Iw Hi).
    + intros _ j w x p' s' f1 g N L R. rewrite EV. rewrite (evOwn_set chk tw (length es) N (proj1 (Hr _ _ _ _ _ _ N R))). eapply ev_set; eauto.
    + intros j w nl f1 g1 h1 x p' s' N R. rewrite EV. rewrite (evOwn_insertN chk tw (length es) (ws := ws) (w := w) N); [apply ev_insertN; auto|].
      destruct (Hr _ _ _ _ _ _ N R) as [Rd D]. split; [exact Rd|]. destruct R as (? & _ & _ & LC & _).
      rewrite !app_length, !map_length, repeat_length, app_length in LC. lia.
  - intros r (H1 & _ & H2). auto.
Qed.

(** ** incrementSize *)
Definition moves p (cap : nat) A (es : list P) g B n : bool :=
  (length es + g <? length es + n) && (cap <? total (A ++ (es, g) :: B) + (clamp p (2 * (length es + n)) - (length es + g))).
Lemma new_block_at p a cap A es g B n : iok a (A ++ (es, g) :: B) ->
  new_block p a cap (length es) (length es + g) n = Ok (moves p cap A es g B n).
Proof.
  intros I. unfold new_block, moves. destruct (_ <? _); [|reflexivity]. cbn [andb]. pose proof I as (Na & _).
  rewrite Na, (offset_at I), firstn_all by auto. reflexivity.
Qed.
Notation cbv p A es g := (crs_cb chk tw kind p (length A) (length es) (length es + g) []).
Notation cbo p A es g q := (crs_cbOwn chk tw kind p (length A) (length es) (length es + g) q).
Notation cbo2 p A es g q := (crs_cbOwn2 chk tw kind p (length A) (length es) (length es + g) q).
Lemma inc_eq p a A es g B q n e0 : iok a (A ++ (es, g) :: B) ->
  cb_inc (cbo p A es g q) n (vals a, (a, e0)) =
  (y <- cb_inc (cbv p A es g) n (vals a, (a, e0)) ;; _ <- dangles kind (moves p (length (ents a)) A es g B n) ;; Ok y).
Proof. intros I. unfold crs_cbOwn, losing. cbn [cb_inc fst snd]. unfold capacity. rewrite (new_block_at p (length (ents a)) n I). reflexivity. Qed.
Lemma inc_eq2 p a A es g B q n e0 : iok a (A ++ (es, g) :: B) ->
  cb_inc (cbo2 p A es g q) n (vals a, (a, e0)) =
  (y <- cb_inc (cbo p A es g q) n (vals a, (a, e0)) ;; _ <- dangles kind (moves p (length (vals a)) A es g B n) ;; Ok y).
Proof. intros I. unfold crs_cbOwn2, losing at 1. cbn [cb_inc fst snd]. unfold capacity. rewrite (new_block_at p (length (vals a)) n I). reflexivity. Qed.
Lemma bind_ok Y (m : outcome Y) : (y <- m ;; Ok y) = m. Proof. destruct m; reflexivity. Qed.
Lemma inc_stay p a A es g B q n e0 : iok a (A ++ (es, g) :: B) -> moves p (length (ents a)) A es g B n = false ->
  cb_inc (cbo p A es g q) n (vals a, (a, e0)) = cb_inc (cbv p A es g) n (vals a, (a, e0)).
Proof. intros I M. rewrite (inc_eq p q n e0 I), M. cbn [dangles bind]. apply bind_ok. Qed.
Lemma inc_stay2 p a A es g B q n e0 : iok a (A ++ (es, g) :: B) -> moves p (length (vals a)) A es g B n = false ->
  cb_inc (cbo2 p A es g q) n (vals a, (a, e0)) = cb_inc (cbo p A es g q) n (vals a, (a, e0)).
Proof. intros I M. rewrite (inc_eq2 p q n e0 I), M. cbn [dangles bind]. apply bind_ok. Qed.
Definition lost {Y} (m : outcome Y) : Prop := m = Fault FDangling \/ (tw = false /\ m = Fault FMove).
Lemma lost_bind {Y Y'} (m : outcome Y) (f : Y -> outcome Y') : lost m -> lost (y <- m ;; f y).
Proof. intros [-> |[Tf ->]]; [left|right]; auto. Qed.
Lemma inc_ok p a A es g B n e0 : aok a (A ++ (es, g) :: B) -> length es + n <= grown p es g n ->
  okb tw (cb_inc (cbv p A es g) n (vals a, (a, e0))) (inc_post true fv (rx (eq LN) A es (grown p es g n) B) es n).
Proof. intros H G. apply (@owner_inc W chk tw p [] a A es g B n e0 H G). Qed.
Lemma inc_lost p a A es g B q n e0 : aok a (A ++ (es, g) :: B) -> length es + n <= grown p es g n ->
  moves p (length (ents a)) A es g B n = true -> lost (cb_inc (cbo p A es g q) n (vals a, (a, e0))).
Proof.
  intros H G M. pose proof H as [I _]. rewrite (inc_eq p q n e0 I), M. destruct (inc_ok e0 H G) as [(y & -> & _)|[Tf ->]]; cbn [bind dangles].
  - left. reflexivity.
  - right. auto.
Qed.
Lemma inc_lost2 p a A es g B q n e0 : aok a (A ++ (es, g) :: B) -> length es + n <= grown p es g n ->
  moves p (length (ents a)) A es g B n = true \/ moves p (length (vals a)) A es g B n = true -> lost (cb_inc (cbo2 p A es g q) n (vals a, (a, e0))).
Proof.
  intros H G M. pose proof H as [I _]. rewrite (inc_eq2 p q n e0 I). destruct (moves p (length (ents a)) A es g B n) eqn:Me.
  - apply lost_bind. exact (inc_lost q e0 H G Me).
  - destruct M as [M|M]; [discriminate|]. rewrite (inc_stay q e0 I Me), M. destruct (inc_ok e0 H G) as [(y & -> & _)|[Tf ->]]; cbn [bind dangles].
    + left. reflexivity.
    + right. auto.
Qed.

(** ** Slots *)
Section Call.
Variable p : matrix.
Variable A B : rows_t.
Variable es : list P.
Variable g k : nat.
Variable rk : list P.
Variable gk : nat.
Notation L := (A ++ (es, g) :: B).
Hypothesis H : aok (rows p) L.
Hypothesis I : pincr es.
Hypothesis N : nth_error L k = Some (rk, gk).
Hypothesis Ik : pincr rk.
Lemma k_len : k < length L.
Proof. apply nth_error_Some. rewrite N. discriminate. Qed.
Lemma k_check : check_array chk (rows p) k = Ok tt.
Proof. destruct H as [Io _]. exact (check_array_at chk Io k_len). Qed.
Lemma entry_slot_at l : l < length rk -> entry_slot chk p k l = Ok (total (firstn k L) + l).
Proof.
  intros Ll. destruct H as [Io _]. unfold entry_slot, getEntries. rewrite k_check. cbn [bind].
  rewrite (offset_at Io) by (pose proof k_len; lia). cbn [bind]. rewrite (size_at Io N). cbn [bind fst].
  rewrite check_if_ok by (apply Nat.leb_gt; exact Ll). reflexivity.
Qed.
Lemma entry_address_at l : entry_address chk p k l = Ok (total (firstn k L) + l).
Proof.
  destruct H as [Io _]. unfold entry_address, getEntries. rewrite k_check. cbn [bind]. rewrite (offset_at Io) by (pose proof k_len; lia). reflexivity.
Qed.
Lemma column_address_at l : column_address chk p k l = Ok (total (firstn k L) + l).
Proof.
  destruct H as [Io _]. unfold column_address, getSetValues. rewrite k_check. cbn [bind]. rewrite (offset_at Io) by (pose proof k_len; lia). reflexivity.
Qed.
Notation sub rk l n := (firstn n (skipn l rk)).
Lemma same_row : k = length A -> rk = es /\ gk = g.
Proof. intros E. rewrite E, row_nth in N. injection N as -> ->. auto. Qed.
Lemma sub_nth (r : list P) l n j w : nth_error (sub r l n) j = Some w -> nth_error r (l + j) = Some w.
Proof.
  intros E. assert (j < n) by (assert (Q : j < length (sub r l n)) by (apply nth_error_Some; congruence); rewrite firstn_length in Q; lia).
  rewrite <- (firstn_skipn l r).
  assert (Ls : l <= length r) by (destruct (Nat.le_gt_cases l (length r)); auto; rewrite skipn_all2, firstn_nil in E by lia; destruct j; discriminate).
  rewrite nth_error_app2 by (rewrite firstn_length; lia). rewrite firstn_length, Nat.min_l, Nat.add_comm, Nat.add_sub by lia.
  rewrite <- (firstn_skipn n (skipn l r)), nth_error_app1; [exact E|]. apply nth_error_Some. congruence.
Qed.

(** *** insertNonZero *)
Definition may_insert (col : Z) (ck : Z) (C : nat) : Prop := present es col = true \/ stays A es g k C \/ (k = length A /\ (ck < col)%Z).
Lemma insert_same l col ck w C : nth_error rk l = Some (ck, w) -> may_insert col ck C -> same_insert A es B C (total (firstn k L) + l) col w.
Proof.
  intros Nl Pl pc s f1 g1 x E F1 G1 R.
  assert (Ab : present es col = false).
  { rewrite E, present_app. apply orb_false_iff. clear -F1 G1. split.
    - induction F1 as [|e f1 He F1 IH]; [reflexivity|]. cbn. apply orb_false_iff. split; [|exact IH]. apply Z.ltb_lt in He. apply Z.eqb_neq. lia.
    - induction G1 as [|e g1 He G1 IH]; [reflexivity|]. cbn. apply orb_false_iff. split; [|exact IH]. apply Z.ltb_lt in He. apply Z.eqb_neq. lia. }
  destruct Pl as [Pl|[Pl|[Ek Lc]]]; [congruence| |].
  - destruct (own_read R N Nl Pl) as [[Rd D] Ee]. apply evOwn_insert. split; [exact Rd|].
    pose proof R as (? & _ & _ & LC & _). rewrite app_length, map_length in LC. cbn [length] in LC. rewrite E, app_length in *. lia.
  - destruct (same_row Ek) as [-> _]. rewrite Ek, firstn_app_exact by auto. apply evOwn_insert. rewrite E in R, Nl |- *. apply (@own_front W tw A f1 g1 C B pc s x l (ck, w) R).
    destruct (Nat.lt_ge_cases l (length f1)) as [Ll|Ll]; [rewrite nth_error_app1 in Nl by exact Ll; exact Nl|].
    rewrite nth_error_app2 in Nl by exact Ll. apply nth_error_In in Nl. rewrite Forall_forall in G1. specialize (G1 _ Nl). cbn in G1. apply Z.ltb_lt in G1. lia.
Qed.
Lemma insert_shifted l col c w : k = length A -> nth_error rk l = Some (c, w) -> (col < c)%Z -> forall C, same_insert A es B C (total (firstn k L) + S l) col w.
Proof.
  intros Ek Nl Lc C pc s f1 g1 x E F1 G1 R. destruct (same_row Ek) as [-> _]. rewrite Ek, firstn_app_exact by auto. rewrite E in R, Nl |- *.
  assert (Ll : length f1 <= l).
  { destruct (Nat.lt_ge_cases l (length f1)) as [Ll|Ll]; [|exact Ll]. rewrite nth_error_app1 in Nl by exact Ll. apply nth_error_In in Nl.
    rewrite Forall_forall in F1. specialize (F1 _ Nl). cbn in F1. apply Z.ltb_lt in F1. lia. }
  rewrite nth_error_app2 in Nl by exact Ll. replace (S l) with (length f1 + S (l - length f1)) by lia. exact (@own_back W chk tw A f1 g1 C B pc s x (l - length f1) (c, w) R Nl).
Qed.
(** Whatever the slot holds when it is read *)
Lemma insertOwn_row col w l : length es + absent es [(col, w)] <= grown p es g (absent es [(col, w)]) -> l < length rk ->
  moves p (length (ents (rows p))) A es g B (absent es [(col, w)]) = false ->
  same_insert A es B (grown p es g (absent es [(col, w)])) (total (firstn k L) + l) col w ->
  let es' := pins (col, w) es in
  okb tw (crs_insertNonZeroOwn chk tw kind p (length A) col k l)
    (fun r => snd r = negb (present es col) /\ ncols (fst r) = ncols p /\
              aok (rows (fst r)) (A ++ (es', grown p es g (absent es [(col, w)]) - length es') :: B)).
Proof.
  intros G Ll Mv Sm es'. pose proof H as [Io _]. unfold crs_insertNonZeroOwn, numNonZeros, nonZeroCapacity. rewrite (entry_slot_at Ll). cbn [bind].
  rewrite (row_size chk Io). cbn [bind]. rewrite (row_capacity chk Io). cbn [bind]. unfold with_rows. eapply okb_bind.
  - eapply ownins_row with (w := w); [exact H|exact I|reflexivity| |exact Sm]. cbn zeta. pose proof (absent1 es (col, w)) as A1. cbn [fst] in A1.
    rewrite <- A1. rewrite (inc_stay _ _ Io Mv). apply inc_ok; [exact H|exact G].
  - intros [a r] [Er H']. left. apply oks_ok. cbn [fst snd rows ncols] in *. auto.
Qed.
Lemma insertOwn_lost col w l : length es + absent es [(col, w)] <= grown p es g (absent es [(col, w)]) -> l < length rk ->
  moves p (length (ents (rows p))) A es g B (absent es [(col, w)]) = true -> lost (crs_insertNonZeroOwn chk tw kind p (length A) col k l).
Proof.
  intros G Ll Mv. pose proof H as [Io [Ev _]]. unfold crs_insertNonZeroOwn, numNonZeros, nonZeroCapacity. rewrite (entry_slot_at Ll). cbn [bind].
  rewrite (row_size chk Io). cbn [bind]. rewrite (row_capacity chk Io). cbn [bind]. unfold with_rows. apply lost_bind. unfold insertIntoSetImpl.
  rewrite (row_check chk Io). cbn [bind]. rewrite (row_size chk Io). cbn [bind]. rewrite (row_values fv chk Io). cbn [bind]. apply lost_bind.
  destruct (lay_row Ev) as [q M].
  destruct (@insert_ok Z P X chk true Z.ltb Z.eqb fv zorder (cbo p A es g (total (firstn k L) + l)) (fun _ _ _ _ => False) (vals (rows p)) (rows p, 0) (flat fv A) _ es (col, w)
              (length (flat fv A)) (length es) M I eq_refl eq_refl ltac:(intros until 1; intros [])) as (kk & E & _).
  cbn [fst] in E. rewrite E. apply lost_bind. pose proof (absent1 es (col, w)) as A1. cbn [fst] in A1. rewrite <- A1. eapply inc_lost; eauto.
Qed.

(** *** insertNonZeros *)
Lemma reads_same l n C ws : map fw ws = map fw (sub rk l n) -> stays A es g k C -> same_reads A es B C (total (firstn k L) + l) ws.
Proof.
  intros E St pc s lo x j w Nj R.
  assert (Nw : nth_error (map fw (sub rk l n)) j = Some (fw w)) by (rewrite <- E, nth_error_map, Nj; reflexivity).
  rewrite nth_error_map in Nw. destruct (nth_error (sub rk l n) j) as [e|] eqn:Ne; [|discriminate]. injection Nw as <-.
  apply sub_nth in Ne. rewrite <- Nat.add_assoc. exact (proj1 (own_read R N Ne St)).
Qed.
(** Calls with new columns [ws] from elsewhere, of which none or only some are absent *)
Lemma none_copies a e0 (cb cb' : callbacks Z X) ws : aok a L -> pincr ws -> absent es ws = 0 ->
  cb_inc cb 0 (vals a, (a, e0)) = cb_inc cb' 0 (vals a, (a, e0)) ->
  insertsIntoSetImpl chk true Z.ltb Z.eqb cb a e0 (length A) (map fst ws) = insertsIntoSetImpl chk true Z.ltb Z.eqb cb' a e0 (length A) (map fst ws).
Proof.
  intros Ha Iw A0 Ic. pose proof Ha as [Io [Ev _]]. unfold insertsIntoSetImpl.
  rewrite (row_check chk Io). cbn [bind]. rewrite (row_size chk Io). cbn [bind]. rewrite (row_values fv chk Io). cbn [bind].
  destruct (lay_row Ev) as [q M].
  assert (Is : StronglySorted (fun x y => Z.ltb x y = true) (map fst es)) by (apply (map_key_incr Z.ltb fst); exact I).
  assert (Isw : StronglySorted (fun x y => Z.ltb x y = true) (map fst ws)) by (apply (map_key_incr Z.ltb fst); exact Iw).
  pose proof (absent_keys es ws) as Ak. rewrite A0 in Ak.
  pose proof (@inserts_none Z X chk true Z.ltb Z.eqb zorder cb (vals a) (a, e0) _ _ _ _ M Is Isw Ak) as Q1.
  pose proof (@inserts_none Z X chk true Z.ltb Z.eqb zorder cb' (vals a) (a, e0) _ _ _ _ M Is Isw Ak) as Q2.
  rewrite map_length in Q1, Q2. rewrite Q1, Q2, Ic. reflexivity.
Qed.
Definition place (n C : nat) : Prop := n = 0 \/ stays A es g k C.
Lemma insertsOwn_row ws l n : pincr ws -> length es + absent es ws <= grown p es g (absent es ws) -> map fw ws = map fw (sub rk l n) ->
  moves p (length (ents (rows p))) A es g B (absent es ws) = false -> place (absent es ws) (grown p es g (absent es ws)) ->
  let es' := fold_right pins es ws in
  okb tw (crs_insertNonZerosOwn chk tw kind p (length A) (map fst ws) k l)
    (fun r => snd r = absent es ws /\ ncols (fst r) = ncols p /\ aok (rows (fst r)) (A ++ (es', grown p es g (absent es ws) - length es') :: B)).
Proof.
  intros Iw G E Mv Pl es'. pose proof H as [Io _]. unfold crs_insertNonZerosOwn, numNonZeros, nonZeroCapacity. rewrite (entry_address_at l). cbn [bind].
  rewrite (row_size chk Io). cbn [bind]. rewrite (row_capacity chk Io). cbn [bind]. unfold with_rows. eapply okb_bind.
  - pose proof (inc_stay (total (firstn k L) + l) 0 Io Mv) as Ic. pose proof (inc_ok 0 H G) as Ok_.
    destruct Pl as [Pl|Pl].
    + rewrite Pl in Ic. rewrite (none_copies (cb' := crs_cb chk tw kind p (length A) (length es) (length es + g) (map fw ws)) H Iw Pl Ic).
      eapply inss_row; [exact H|exact I|exact Iw|reflexivity|]. exact Ok_.
    + eapply owninss_row; [exact H|exact I|exact Iw|reflexivity| |exact (reads_same E Pl)]. cbn zeta. rewrite Ic. exact Ok_.
  - intros [a r] [Er H']. left. apply oks_ok. cbn [fst snd rows ncols] in *. auto.
Qed.
Lemma inserts_lost a e0 (cb : callbacks Z X) ws : aok a L -> pincr ws -> lost (cb_inc cb (absent es ws) (vals a, (a, e0))) ->
  lost (insertsIntoSetImpl chk true Z.ltb Z.eqb cb a e0 (length A) (map fst ws)).
Proof.
  intros Ha Iw Lo. pose proof Ha as [Io [Ev _]]. unfold insertsIntoSetImpl.
  rewrite (row_check chk Io). cbn [bind]. rewrite (row_size chk Io). cbn [bind]. rewrite (row_values fv chk Io). cbn [bind]. apply lost_bind.
  destruct (lay_row Ev) as [q M].
  destruct (@inserts_ok Z P X chk true Z.ltb Z.eqb fv zorder cb (fun _ _ _ _ => False) (vals a) (a, e0) (flat fv A) _ es ws
              (length (flat fv A)) (length es) M I Iw eq_refl eq_refl ltac:(intros until 3; intros []) ltac:(intros until 1; intros [])) as (kk & E & _).
  rewrite E. apply lost_bind. exact Lo.
Qed.
Lemma insertsOwn_lost ws l : pincr ws -> length es + absent es ws <= grown p es g (absent es ws) ->
  moves p (length (ents (rows p))) A es g B (absent es ws) = true -> lost (crs_insertNonZerosOwn chk tw kind p (length A) (map fst ws) k l).
Proof.
  intros Iw G Mv. pose proof H as [Io _]. unfold crs_insertNonZerosOwn, numNonZeros, nonZeroCapacity. rewrite (entry_address_at l). cbn [bind].
  rewrite (row_size chk Io). cbn [bind]. rewrite (row_capacity chk Io). cbn [bind]. unfold with_rows. apply lost_bind.
  apply inserts_lost; [exact H|exact Iw|]. eapply inc_lost; eauto.
Qed.

(** *** insertNonZeros with columns of the matrix *)
Lemma sub_incr (r : list P) l n : l + n <= length r -> pincr r -> pincr (sub r l n).
Proof.
  intros Ln Ir. rewrite <- (firstn_skipn l r) in Ir. apply strong_app in Ir. destruct Ir as (_ & Ir & _).
  rewrite <- (firstn_skipn n (skipn l r)) in Ir. apply strong_app in Ir. tauto.
Qed.
Lemma sub_length (r : list P) l n : l + n <= length r -> length (sub r l n) = n.
Proof. intros Ln. rewrite firstn_length, skipn_length. lia. Qed.
Lemma columns_read a l n : aok a (A ++ (es, g) :: B) -> reads (vals a) (total (firstn k L) + l) (map fst (sub rk l n)).
Proof.
  intros [_ [[q M] _]] j c E. rewrite nth_error_map in E. destruct (nth_error (sub rk l n) j) as [e|] eqn:Ne; [|discriminate]. injection E as <-.
  apply sub_nth in Ne. eapply MemProofs.rd_nth; [exact M|]. rewrite <- Nat.add_assoc. 
  assert (G : nth_error (flat fv L) (total (firstn k L) + (l + j)) = Some (LV (fv e))).
  { clear -N Ne. revert k N. generalize L. induction l0 as [|[r c] L0 IH]; intros [|k] N; try discriminate; cbn [nth_error] in N.
    - injection N as -> ->. cbn [firstn total plus]. unfold flat. cbn [flat_map]. unfold cells at 1. cbn [fst snd].
      assert (l + j < length rk) by (apply nth_error_Some; congruence).
      rewrite <- app_assoc, nth_error_app1 by (rewrite !map_length; lia). rewrite !nth_error_map, Ne. reflexivity.
    - specialize (IH k N). cbn [firstn total]. unfold flat. cbn [flat_map]. fold (flat fv L0). unfold cells at 1, wid. cbn [fst snd].
      rewrite nth_error_app2 by (rewrite app_length, !map_length, repeat_length; lia).
      rewrite <- IH. f_equal. rewrite app_length, !map_length, repeat_length. lia. }
  rewrite nth_error_app1 by (apply nth_error_Some; rewrite G; discriminate). exact G.
Qed.
Lemma flat_atv A0 k0 r0 g0 j (e : P) : nth_error A0 k0 = Some (r0, g0) -> nth_error r0 j = Some e ->
  nth_error (flat fv A0) (total (firstn k0 A0) + j) = Some (LV (fv e)).
Proof.
  clear. revert k0; induction A0 as [|[r c] A0 IH]; intros [|k] N J; try discriminate; simpl in N.
  - injection N as -> ->. cbn [firstn total plus]. unfold flat. cbn [flat_map]. unfold cells at 1. cbn [fst snd].
    assert (j < length r0) by (apply nth_error_Some; congruence).
    rewrite <- app_assoc, nth_error_app1 by (rewrite !map_length; lia). rewrite !nth_error_map, J. reflexivity.
  - specialize (IH k N J). cbn [firstn]. cbn [total]. unfold flat. cbn [flat_map]. fold (flat fv A0). unfold cells at 1, wid. cbn [fst snd].
    rewrite nth_error_app2 by (rewrite app_length, !map_length, repeat_length; lia).
    rewrite <- IH. f_equal. rewrite app_length, !map_length, repeat_length. lia.
Qed.
Lemma column_stays b mid tl C j e : mem true b (flat fv A ++ mid ++ flat fv B ++ tl) -> length mid = C -> nth_error rk j = Some e -> stays A es g k C ->
  rd b (total (firstn k L) + j) = Ok (fv e) /\ (total (firstn k L) + length rk <= total A \/ total A + C <= total (firstn k L)).
Proof.
  intros M LC J S. assert (Lj : j < length rk) by (apply nth_error_Some; congruence). destruct S as [S|[S E]].
  - rewrite nth_error_app1 in N by exact S. rewrite firstn_app, (proj2 (Nat.sub_0_le k (length A))) by lia. cbn [firstn]. rewrite app_nil_r.
    pose proof (flat_atv N J) as G.
    assert (Lt : total (firstn k A) + length rk <= total A).
    { apply nth_error_split in N. destruct N as (l1 & l2 & -> & <-). rewrite firstn_app_exact by auto. rewrite total_app. cbn [total]. unfold wid. cbn [fst snd]. lia. }
    split; [|left; exact Lt]. eapply MemProofs.rd_nth; [exact M|]. rewrite nth_error_app1 by (rewrite flat_length; lia). exact G.
  - rewrite nth_error_app2 in N by lia. destruct (k - length A) as [|k'] eqn:Ek; [lia|]. cbn [nth_error] in N.
    rewrite firstn_app, firstn_all2, Ek by lia. cbn [firstn].
    assert (Et : total (A ++ (es, g) :: firstn k' B) = total A + C + total (firstn k' B)).
    { rewrite total_app. cbn [total]. unfold wid. cbn [fst snd]. lia. }
    rewrite Et. pose proof (flat_atv N J) as G.
    split; [|right; lia]. eapply MemProofs.rd_nth; [exact M|].
    rewrite nth_error_app2 by (rewrite flat_length; lia). rewrite nth_error_app2 by (rewrite flat_length; lia).
    assert (Lt : total (firstn k' B) + j < length (flat fv B)) by (apply nth_error_Some; rewrite G; discriminate).
    rewrite nth_error_app1; rewrite !flat_length, LC; replace (total A + C + total (firstn k' B) + j - total A - C) with (total (firstn k' B) + j) by lia; [exact G|].
    rewrite <- (flat_length fv B). exact Lt.
Qed.
Lemma rowOwn_row l n : l + n <= length rk -> let ws := sub rk l n in
  length es + absent es ws <= grown p es g (absent es ws) ->
  moves p (length (ents (rows p))) A es g B (absent es ws) = false -> moves p (length (vals (rows p))) A es g B (absent es ws) = false ->
  place (absent es ws) (grown p es g (absent es ws)) ->
  crs_insertRowOwn chk tw kind p (length A) k l n = crs_insertNonZerosOwn chk tw kind p (length A) (map fst ws) k l.
Proof.
  intros Ln ws G Mv Mv2 Pl. pose proof H as [Io [Ev _]]. unfold crs_insertRowOwn, crs_insertNonZerosOwn, numNonZeros, nonZeroCapacity, insertsIntoSetImpl.
  rewrite (column_address_at l), (entry_address_at l). cbn [bind]. rewrite (row_size chk Io). cbn [bind]. rewrite (row_capacity chk Io). cbn [bind].
  rewrite (row_check chk Io). cbn [bind]. rewrite (row_values fv chk Io). cbn [bind]. destruct (lay_row Ev) as [q M].
  assert (Is : StronglySorted (fun x y => Z.ltb x y = true) (map fst es)) by (apply (map_key_incr Z.ltb fst); exact I).
  assert (Isw : StronglySorted (fun x y => Z.ltb x y = true) (map fst ws)) by (apply (map_key_incr Z.ltb fst); exact (sub_incr Ln Ik)).
  pose proof (absent_keys es ws) as Ak.
  pose proof (@insertsOwn_eq Z X chk true Z.ltb Z.eqb zorder (cbo p A es g (total (firstn k L) + l)) (cbo2 p A es g (total (firstn k L) + l)) (vals (rows p)) (rows p, 0)
    _ _ _ (total (firstn k L) + l) (map fst ws) M Is Isw (columns_read (l := l) (n := n) H) eq_refl) as Q.
  rewrite Ak in Q. specialize (Q (inc_stay2 _ _ Io Mv2)). rewrite !map_length in Q. assert (Lw : length ws = n) by apply (sub_length Ln). rewrite Lw in Q. rewrite Q; [reflexivity|]. clear Q.
  intros P0 b1 x1 np E1. destruct Pl as [Pl|Pl]; [fold ws in P0; lia|]. rewrite (inc_stay _ _ Io Mv) in E1.
  destruct (inc_ok 0 H G) as [(y & E2 & Po)|[_ E2]]; rewrite E1 in E2; [|discriminate]. injection E2 as <-. destruct Po as (p1 & s1 & -> & M1 & R1).
  pose proof R1 as (q1 & -> & -> & LC & _ & _). exists (flat fv A), (repeat LN (grown p es g (absent es ws) - length (map Some es ++ repeat None (absent es ws))) ++ flat fv B ++ repeat LN q1).
  split; [reflexivity|]. split; [exact M1|]. rewrite app_length, map_length, repeat_length in LC.
  set (C := grown p es g (absent es ws)) in *.
  assert (M1' : mem true b1 (flat fv A ++ (map (@LV Z) (map fv es) ++ repeat LN (absent es ws) ++ repeat LN (C - length (map Some es ++ repeat None (absent es ws)))) ++ flat fv B ++ repeat LN q1)).
  { eapply mem_cast; [exact M1|]. rewrite <- !app_assoc. reflexivity. }
  assert (Lm : length (map (@LV Z) (map fv es) ++ repeat LN (absent es ws) ++ repeat LN (C - length (map Some es ++ repeat (@None P) (absent es ws)))) = C).
  { rewrite !app_length, !map_length, !repeat_length. lia. }
  assert (H1 : forall j e, nth_error (sub rk l n) j = Some e ->
    rd b1 (total (firstn k L) + l + j) = Ok (fv e) /\ (total (firstn k L) + length rk <= total A \/ total A + C <= total (firstn k L))).
  { intros j e Ne. apply sub_nth in Ne. rewrite <- Nat.add_assoc. exact (column_stays M1' Lm Ne Pl). }
  rewrite flat_length. split.
  - intros j c Ne. rewrite nth_error_map in Ne. destruct (nth_error ws j) as [e|] eqn:E3; [|discriminate]. injection Ne as <-. apply (H1 _ _ E3).
  - unfold away. destruct (sub rk l n) as [|e r] eqn:Es.
    + cbn in P0. lia.
    + destruct (H1 0 e eq_refl) as [_ D]. lia.
Qed.
Lemma rowOwn_lost l n : l + n <= length rk -> let ws := sub rk l n in
  length es + absent es ws <= grown p es g (absent es ws) ->
  moves p (length (ents (rows p))) A es g B (absent es ws) = true \/ moves p (length (vals (rows p))) A es g B (absent es ws) = true ->
  lost (crs_insertRowOwn chk tw kind p (length A) k l n).
Proof.
  intros Ln ws G Mv. pose proof H as [Io [Ev _]]. unfold crs_insertRowOwn, numNonZeros, nonZeroCapacity.
  rewrite (column_address_at l), (entry_address_at l). cbn [bind]. rewrite (row_size chk Io). cbn [bind]. rewrite (row_capacity chk Io). cbn [bind].
  rewrite (row_check chk Io). cbn [bind]. rewrite (row_values fv chk Io). cbn [bind]. unfold with_rows. apply lost_bind. apply lost_bind. destruct (lay_row Ev) as [q M].
  assert (Is : StronglySorted (fun x y => Z.ltb x y = true) (map fst es)) by (apply (map_key_incr Z.ltb fst); exact I).
  assert (Isw : StronglySorted (fun x y => Z.ltb x y = true) (map fst ws)) by (apply (map_key_incr Z.ltb fst); exact (sub_incr Ln Ik)).
  destruct (@insertsOwn_inc Z X chk true Z.ltb Z.eqb zorder (cbo2 p A es g (total (firstn k L) + l)) (vals (rows p)) (rows p, 0)
    _ _ _ (total (firstn k L) + l) (map fst ws) M Is Isw (columns_read (l := l) (n := n) H)) as [K Q].
  rewrite !map_length in Q. unfold ws in Q. rewrite (sub_length Ln) in Q. rewrite Q. apply lost_bind. rewrite (absent_keys es). exact (inc_lost2 _ 0 H G Mv).
Qed.
(** *** removeNonZeros *)
Lemma sub_parts (r : list P) l n : l + n <= length r -> map fv r = map fv (firstn l r) ++ map fv (sub r l n) ++ map fv (skipn n (skipn l r)).
Proof. intros _. rewrite <- !map_app, !firstn_skipn. reflexivity. Qed.
Lemma removesOwn_row l n : l + n <= length rk ->
  crs_removeNonZerosOwn chk tw p (length A) k l n = crs_removeNonZeros chk tw p (length A) (map fst (sub rk l n)).
Proof.
  intros Ln. pose proof H as [Io [Ev _]]. unfold crs_removeNonZerosOwn, crs_removeNonZeros, removesFromSetImpl, numNonZeros, nonZeroCapacity.
  rewrite (column_address_at l). cbn [bind]. rewrite (row_entries chk Io). cbn [bind]. rewrite (row_size chk Io). cbn [bind]. rewrite (row_capacity chk Io). cbn [bind].
  rewrite (row_check chk Io). cbn [bind]. rewrite (row_values fv chk Io). cbn [bind]. destruct (lay_row Ev) as [q M].
  assert (Is : StronglySorted (fun x y => Z.ltb x y = true) (map fst es)) by (apply (map_key_incr Z.ltb fst); exact I).
  assert (Isw : StronglySorted (fun x y => Z.ltb x y = true) (map fst (sub rk l n))) by (apply (map_key_incr Z.ltb fst); exact (sub_incr Ln Ik)).
  set (cb := crs_view_cb chk tw (length A) (length es) (length es + g) []). set (x := (rows p, length (flat fv A))).
  assert (Q : removesOwn chk true Z.ltb Z.eqb cb (vals (rows p)) x (length (flat fv A)) (length es) (total (firstn k L) + l) n =
              removes chk true Z.ltb Z.eqb cb (vals (rows p)) x (length (flat fv A)) (length es) (map fst (sub rk l n))); [|rewrite Q; reflexivity].
  destruct (Nat.eq_dec k (length A)) as [E|E].
  - destruct (same_row E) as [Er _]. rewrite Er in Ln |- *. pose proof M as M'. pose proof Is as Is'. rewrite (sub_parts Ln) in M', Is'.
    pose proof (@removesOwn_self Z X chk true Z.ltb Z.eqb zorder cb (vals (rows p)) x _ _ _ _ _ M' Is') as Q.
    rewrite <- (sub_parts Ln), !map_length, (sub_length Ln), firstn_length, Nat.min_l in Q by lia.
    rewrite E, firstn_app_exact by auto. rewrite <- (flat_length fv A). exact Q.
  - pose proof (@removesOwn_away Z X chk true Z.ltb Z.eqb zorder cb (vals (rows p)) x (length (flat fv A)) (length es) _ _ Isw (columns_read (l := l) (n := n) H)) as Q.
    rewrite map_length, (sub_length Ln) in Q. apply Q. unfold away. rewrite flat_length. destruct (Nat.lt_ge_cases k (length A)) as [K|K].
    + left. rewrite nth_error_app1 in N by exact K. apply nth_error_split in N. destruct N as (l1 & l2 & EA & Lk).
      rewrite EA, <- Lk, <- !app_assoc, firstn_app_exact by auto. rewrite total_app. cbn [total]. unfold wid. cbn [fst snd]. lia.
    + right. destruct (k - length A) as [|k'] eqn:Ek; [lia|]. rewrite firstn_app, firstn_all2, Ek by lia. cbn [firstn]. rewrite total_app. cbn [total]. unfold wid. cbn [fst snd]. lia.
Qed.
(** *** Through a view *)
Lemma v_insertOwn_row col w l : absent es [(col, w)] <= g -> l < length rk ->
  same_insert A es B (length es + g) (total (firstn k L) + l) col w ->
  let es' := pins (col, w) es in
  okb tw (crs_v_insertNonZeroOwn chk tw p (length A) col k l)
    (fun r => snd r = negb (present es col) /\ ncols (fst r) = ncols p /\ aok (rows (fst r)) (A ++ (es', length es + g - length es') :: B)).
Proof.
  intros G Ll Sm es'. pose proof H as [Io _]. unfold crs_v_insertNonZeroOwn, numNonZeros, nonZeroCapacity. rewrite (entry_slot_at Ll). cbn [bind].
  rewrite (row_size chk Io). cbn [bind]. rewrite (row_capacity chk Io). cbn [bind]. rewrite (row_entries chk Io). cbn [bind]. unfold with_rows. eapply okb_bind.
  - eapply ownins_row with (w := w); [exact H|exact I|reflexivity| |exact Sm]. cbn zeta. pose proof (absent1 es (col, w)) as A1. cbn [fst] in A1.
    rewrite <- A1. left. apply (view_inc chk [] H G).
  - intros [a r] [Er H']. left. apply oks_ok. cbn [fst snd rows ncols] in *. auto.
Qed.
Lemma v_insertsOwn_row ws l n : pincr ws -> absent es ws <= g -> map fw ws = map fw (sub rk l n) -> place (absent es ws) (length es + g) ->
  let es' := fold_right pins es ws in
  okb tw (crs_v_insertNonZerosOwn chk tw p (length A) (map fst ws) k l)
    (fun r => snd r = absent es ws /\ ncols (fst r) = ncols p /\ aok (rows (fst r)) (A ++ (es', length es + g - length es') :: B)).
Proof.
  intros Iw G E Pl es'. pose proof H as [Io _]. unfold crs_v_insertNonZerosOwn, numNonZeros, nonZeroCapacity. rewrite (entry_address_at l). cbn [bind].
  rewrite (row_size chk Io). cbn [bind]. rewrite (row_capacity chk Io). cbn [bind]. rewrite (row_entries chk Io). cbn [bind]. unfold with_rows. eapply okb_bind.
  - destruct Pl as [Pl|Pl].
    + rewrite (none_copies (cb := crs_view_cbOwn W chk tw (length A) (length es) (length es + g) (total (firstn k L) + l))
                           (cb' := crs_view_cb chk tw (length A) (length es) (length es + g) (map fw ws)) H Iw Pl eq_refl).
      eapply inss_row; [exact H|exact I|exact Iw|reflexivity|]. left. apply (view_inc chk _ H G).
    + eapply owninss_row; [exact H|exact I|exact Iw|reflexivity| |exact (reads_same E Pl)]. left. apply (view_inc chk [] H G).
  - intros [a r] [Er H']. left. apply oks_ok. cbn [fst snd rows ncols] in *. auto.
Qed.
End Call.
End Own.
