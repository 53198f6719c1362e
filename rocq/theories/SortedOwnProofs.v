(** The functions of SortedOwn.v do the same as those of Sorted.v with copies of the values, if the slots named still hold these values
    when they are read. *)
From Coq Require Import List Arith ZArith Lia Bool Sorting.Sorted.
From Verif Require Import Base BaseProofs Mem MemProofs ArrayManipProofs BufferManip Sorted SortedSpec SortedProofs SortedProofs2 SortedProofs3 OwnRange OwnRangeProofs SortedOwn.
From Verif Require ArrayManip.
Import ListNotations.
Set Implicit Arguments.
Unset Strict Implicit.

Section Own.
Variable V X : Type.
Variable chk triv : bool.
Variable lt eqb : V -> V -> bool.
Hypothesis T : total_order lt eqb.
Let W := to_swo T.
Notation buf := (buf V).
Notation mem := (@mem V triv).
Notation LVs := (map (@LV V)).
Notation idv := (fun v : V => v).
Notation incr l := (StronglySorted (fun x y => lt x y = true) l).
Notation pinsert := (pinsert lt eqb idv).
Notation absent := (absent eqb idv).
Notation present := (present eqb idv).

(** Slots [q .. q + m) are not among [p .. p + n). *)
Definition away (q m p n : nat) : Prop := q + m <= p \/ p + n <= q.
Lemma massign_nth (b b' : buf) d s j : massign triv b d s = Ok b' -> d <> j -> s <> j -> nth_error b' j = nth_error b j.
Proof.
  unfold massign. intros E N N'. st E. destruct x as [c b1].
  assert (B1 : nth_error b1 j = nth_error b j).
  { unfold take in Heqo. st Heqo. destruct triv; [injection Heqo as _ <-; reflexivity|]. destruct x; [discriminate| |].
    - st Heqo. injection Heqo as _ <-. eapply aset_nth; eauto.
    - injection Heqo as _ <-. reflexivity. }
  rewrite <- B1. unfold store in E. st E. destruct x; [destruct triv; [|discriminate]| |]; exact (aset_nth E N).
Qed.
Lemma shiftDown_nth (b b' : buf) p size index n j :
  ArrayManip.shiftDown chk triv b p size index n = Ok b' -> n <= index -> j < p + (index - n) \/ p + size <= j -> nth_error b' j = nth_error b j.
Proof.
  unfold ArrayManip.shiftDown. intros E Hn H. st E. destruct (Nat.eqb_spec n 0); [injection E as <-; reflexivity|].
  refine (@for_up_inv _ (fun c => nth_error c j = nth_error b j) _ _ _ _ _ _ E eq_refl). intros y c d Hy Ey Hc. rewrite <- Hc.
  unfold sub_ix in Ey. destruct (n <=? p + y); [|discriminate]. cbn [bind] in Ey. eapply massign_nth; [exact Ey| |]; lia.
Qed.
Lemma reads_keep (b b' : buf) q vs : reads b q vs -> (forall j, q <= j < q + length vs -> nth_error b' j = nth_error b j) -> reads b' q vs.
Proof.
  intros R H x v Hx. rewrite <- (R x v Hx). apply rd_nth_eq, H. assert (x < length vs) by (apply nth_error_Some; congruence). lia.
Qed.
Lemma reads_tail (b : buf) q v vs : reads b q (v :: vs) -> rd b q = Ok v /\ reads b (q + 1) vs.
Proof.
  intros R. split; [rewrite <- (Nat.add_0_r q); apply R; reflexivity|]. intros x w Hx. replace (q + 1 + x) with (q + S x) by lia. apply R. exact Hx.
Qed.
Lemma reads_last (b : buf) q v vs : reads b q (vs ++ [v]) -> rd b (q + length vs) = Ok v /\ reads b q vs.
Proof.
  intros R. split; [apply R; rewrite nth_error_app2, Nat.sub_diag by lia; reflexivity|]. intros x w Hx. apply R. rewrite nth_error_app1; auto. apply nth_error_Some. congruence.
Qed.
Lemma reads_skip (b : buf) q d vs : reads b q (d ++ vs) -> reads b (q + length d) vs.
Proof. intros R x w Hx. rewrite <- Nat.add_assoc. apply R. rewrite nth_error_app2 by lia. rewrite Nat.add_comm, Nat.add_sub. exact Hx. Qed.

Section Loops.
Variable cb : callbacks V X.
Lemma set_loopOwn_eq vs : forall (b : buf) x p n q, reads b q vs -> away q (length vs) (p + n) (length vs) ->
  set_loopOwn triv cb b x p n q (length vs) = set_loop triv cb b x p n vs.
Proof.
  induction vs as [|v vs IH]; intros b x p n q R D; [reflexivity|]. cbn [length set_loopOwn set_loop]. destruct (reads_tail R) as [-> R']. cbn [bind].
  destruct (construct triv b (p + n) v) as [b'| |] eqn:E; cbn [bind]; auto. destruct (cb_ev cb (ESet n n) x); cbn [bind]; auto. unfold away in *. cbn [length] in D. apply IH; [|unfold away; lia].
  eapply reads_keep; [exact R'|]. intros j Hj. eapply construct_nth; [exact E|]. lia.
Qed.
Lemma count_loopOwn_eq rws : forall (b : buf) p size ub n q, reads b q (rev rws) ->
  count_loopOwn lt eqb b p size ub n q (length rws) = count_loop lt eqb b p size ub n rws.
Proof.
  induction rws as [|v rws IH]; intros b p size ub n q R; [reflexivity|]. cbn [rev length count_loopOwn count_loop] in *.
  destruct (reads_last R) as [R1 R']. rewrite rev_length in R1. rewrite R1. cbn [bind]. destruct (find lt b p ub v) as [ub'| |]; cbn [bind]; auto.
  match goal with |- bind ?m _ = bind ?m _ => destruct m as [ab| |]; cbn [bind]; auto end.
Qed.
Lemma insert_loopOwn_eq rws : forall (b : buf) x p s A C nLeft q,
  incr (rev rws) -> incr (A ++ C) -> (forall w c, In w rws -> In c C -> lt w c = true) ->
  length (fold_right pinsert (A ++ C) (rev rws)) = length (A ++ C) + nLeft ->
  mem b (p ++ LVs A ++ repeat LN nLeft ++ LVs C ++ s) -> reads b q (rev rws) -> away q (length rws) (length p) (length A + nLeft) ->
  insert_loopOwn chk triv lt eqb cb b x (length p) (length A) nLeft q (length rws) = insert_loop chk triv lt eqb cb b x (length p) (length A) nLeft rws.
Proof.
  induction rws as [|w rws IH]; intros b x p s A C nLeft q Iw I LC Len M R Aw; [reflexivity|].
  cbn [rev length insert_loopOwn insert_loop] in *. destruct (reads_last R) as [R1 R']. rewrite rev_length in R1. rewrite R1. cbn [bind].
  rewrite fold_right_app in *. cbn [fold_right] in *. apply strong_app in Iw. destruct Iw as (Iw & _ & Lw).
  pose proof I as I'. apply strong_app in I'. destruct I' as (IA & IC & LAC).
  destruct (@psplit V V lt eqb idv T A w IA) as (A1 & A2 & EA & LA & GA).
  assert (MA : mem b (p ++ LVs (map idv (A1 ++ A2)) ++ repeat LN nLeft ++ LVs C ++ s)) by (rewrite map_id, <- EA; exact M).
  assert (IA' : StronglySorted (fun x y => lt (idv x) (idv y) = true) (A1 ++ A2)) by (rewrite <- EA; exact IA).
  assert (LAl : length A = length A1 + length A2) by (rewrite EA, app_length; reflexivity).
  rewrite (@pfind V V triv lt idv b p _ A1 A2 w (length p) (length A) MA LA GA eq_refl LAl). cbn [bind].
  rewrite (@check_present V V triv lt eqb idv T b p _ A1 A2 w (length p) (length A) MA IA' LA GA eq_refl LAl). cbn [bind]. rewrite <- EA.
  assert (PC : present C w = false).
  { clear -LC T. induction C as [|c C IH]; simpl; auto. rewrite (lt_neq' T); simpl.
    - apply IH. intros. apply LC; simpl in *; auto.
    - apply LC; simpl; auto. }
  unfold away in Aw.
  destruct (present A w) eqn:Pr.
  - rewrite (@pinsert_present V V lt eqb idv T w (A ++ C) I) in * by (rewrite present_app, Pr; reflexivity).
    eapply IH; eauto; [intros; apply LC; simpl; auto|unfold away; lia].
  - assert (GA2 : Forall (fun e => lt w e = true) A2).
    { rewrite EA, present_app, (@present_less V V lt eqb idv T A1 w LA) in Pr. simpl in Pr. clear -T Pr GA. induction GA as [|e B H GB IH]; constructor.
      - simpl in Pr. apply orb_false_iff in Pr. apply (ge_neq T); tauto.
      - simpl in Pr. apply orb_false_iff in Pr. tauto. }
    assert (EI : pinsert w (A ++ C) = A1 ++ (w :: A2 ++ C)).
    { rewrite EA, <- app_assoc, pinsert_less by exact LA. f_equal. apply (pinsert_absent T).
      apply Forall_app. split; [exact GA2|]. apply Forall_forall. intros c Hc. apply LC; simpl; auto. }
    rewrite EI in *.
    assert (I2 : incr (A1 ++ w :: A2 ++ C)) by (rewrite <- EI; apply (@pinsert_incr V V lt eqb idv T); exact I).
    destruct nLeft as [|nLeft].
    { exfalso. rewrite (@pinserts_length V V lt eqb idv T) in Len by (exact I2 || exact Iw). revert Len. rewrite EA. len. }
    assert (SU : oks (ArrayManip.shiftUp chk triv b (length p) (length A) (length A1) (S nLeft)) (fun b1 => mem b1 (p ++ LVs A1 ++ repeat LN (S nLeft) ++ LVs A2 ++ LVs C ++ s))).
    { eapply (@shiftUp_ok V chk triv b p A1 A2 (S nLeft) (LVs C ++ s)); eauto.
      eapply mem_cast; [exact M|]. rewrite EA, map_app. lapp. auto. }
    destruct SU as (b1 & E1 & M1). rewrite E1. cbn [bind]. unfold sub_ix. replace (1 <=? length p + length A1 + S nLeft) with true by (symmetry; apply Nat.leb_le; lia). cbn [bind].
    assert (K1 : forall j, q <= j < q + S (length rws) -> nth_error b1 j = nth_error b j) by (intros j Hj; eapply shiftUp_nth; [exact E1|]; lia).
    rewrite (@rd_nth_eq V b b1 (q + length rws)) by (apply K1; lia). rewrite R1. cbn [bind].
    assert (CO : oks (construct triv b1 (length p + length A1 + S nLeft - 1) w) (fun b2 => mem b2 (p ++ LVs A1 ++ repeat LN nLeft ++ LVs (w :: A2 ++ C) ++ s))).
    { eapply oks_mono; [eapply construct_ok with (p := p ++ LVs A1 ++ repeat LN nLeft) (c := LN) (s := LVs A2 ++ LVs C ++ s)|].
      - eapply mem_cast; [exact M1|]. rewrite repeat_snoc. lapp. auto.
      - len.
      - simpl; auto.
      - intros b2 M2. eapply mem_cast; [exact M2|]. simpl. rewrite !map_app. lapp. auto. }
    destruct CO as (b2 & E2 & M2). rewrite E2. cbn [bind]. rewrite LAl. destruct (cb_ev cb _ x) as [x2| |]; cbn [bind]; auto.
    replace (S nLeft - 1) with nLeft by lia. eapply (IH b2 x2 p s A1 (w :: A2 ++ C) nLeft q); eauto.
    + intros w' c Hw' [<-|Hc]; [apply Lw; simpl; auto; apply in_rev in Hw'; auto|].
      assert (lt w c = true) by (apply in_app_or in Hc; destruct Hc as [Hc|Hc]; [rewrite Forall_forall in GA2; auto|apply LC; simpl; auto]).
      eapply (trans W); eauto. apply Lw; simpl; auto. apply in_rev in Hw'; auto.
    + rewrite EA in Len. revert Len. len.
    + eapply reads_keep; [exact R'|]. intros j Hj. rewrite rev_length in Hj. rewrite (construct_nth (j := j) E2) by lia. apply K1. lia.
    + unfold away. lia.
Qed.

(** insert( first, last ): [cb'] may lose the values, [cb] is the same without that. *)
Lemma insertsOwn_eq (cb' : callbacks V X) (b : buf) x p s es q vs : mem b (p ++ LVs es ++ s) -> incr es -> incr vs -> reads b q vs ->
  cb_ev cb' = cb_ev cb -> cb_inc cb' (absent es vs) (b, x) = cb_inc cb (absent es vs) (b, x) ->
  (0 < absent es vs -> forall b1 x1 np, cb_inc cb (absent es vs) (b, x) = Ok (b1, x1, np) ->
     exists p1 s1, np = length p1 /\ mem b1 (p1 ++ LVs es ++ repeat LN (absent es vs) ++ s1) /\ reads b1 q vs /\ away q (length vs) np (length es + absent es vs)) ->
  insertsOwn chk triv lt eqb cb' b x (length p) (length es) q (length vs) = inserts chk triv lt eqb cb b x (length p) (length es) vs.
Proof.
  intros M I Iv R Ev Ic H. set (n := absent es vs) in *.
  assert (Sl : forall (c : callbacks V X) m (b : buf) x p n q, cb_ev c = cb_ev cb -> set_loopOwn triv c b x p n q m = set_loopOwn triv cb b x p n q m).
  { intros c m. induction m as [|m IH]; intros b0 x0 p0 n0 q0 Hc; cbn [set_loopOwn]; [reflexivity|]. rewrite Hc. repeat (match goal with |- bind ?m _ = bind ?m _ => destruct m; cbn [bind]; auto end). }
  assert (Il : forall (c : callbacks V X) m (b : buf) x p ub nl q, cb_ev c = cb_ev cb -> insert_loopOwn chk triv lt eqb c b x p ub nl q m = insert_loopOwn chk triv lt eqb cb b x p ub nl q m).
  { intros c m. induction m as [|m IH]; intros b0 x0 p0 ub nl q0 Hc; cbn [insert_loopOwn]; [reflexivity|]. rewrite Hc.
    repeat (match goal with |- bind ?m _ = bind ?m _ => destruct m; cbn [bind]; auto | |- (if ?c then _ else _) = _ => destruct c; auto end). }
  unfold insertsOwn, inserts. destruct (Nat.eqb_spec (length es) 0) as [E0|E0].
  - destruct es; [|discriminate]. assert (En : n = length vs) by apply absent_nil. clearbody n. subst n. rewrite Ic. set (n := length vs) in *. assert (En : n = length vs) by reflexivity. clearbody n.
    destruct (cb_inc cb n (b, x)) as [[[b1 x1] np]| |] eqn:E1; cbn [bind]; auto. rewrite Sl by exact Ev.
    destruct (Nat.eq_dec n 0) as [Z|Z].
    + rewrite Z in En. destruct vs; [|discriminate]. rewrite Z. reflexivity.
    + destruct (H ltac:(lia) _ _ _ eq_refl) as (p1 & s1 & -> & M1 & R1 & A1). rewrite En in A1 |- *. apply set_loopOwn_eq; [exact R1|]. cbn [length] in A1. rewrite Nat.add_0_r. exact A1.
  - assert (Rr : reads b q (rev (rev vs))) by (rewrite rev_involutive; exact R).
    rewrite <- (rev_length vs), (count_loopOwn_eq _ _ _ _ Rr).
    assert (M' : mem b (p ++ LVs (map idv es) ++ s)) by (rewrite map_id; exact M).
    assert (C := @count_loop_ok V V unit triv lt eqb idv T (fun _ _ _ _ => True) b p s es (length p) (length es) M' I eq_refl eq_refl (rev vs) es [] 0).
    rewrite map_id, rev_involutive in C. specialize (C Iv (eq_sym (app_nil_r _)) (fun w _ => Forall_nil _)). cbn [plus] in C. fold n in C. rewrite C. cbn [bind]. rewrite Ic.
    destruct (cb_inc cb n (b, x)) as [[[b1 x1] np]| |] eqn:E1; cbn [bind]; auto. destruct (Nat.eqb_spec n 0) as [Z|Z]; [reflexivity|].
    destruct (H ltac:(lia) _ _ _ eq_refl) as (p1 & s1 & -> & M1 & R1 & A1). rewrite Il by exact Ev.
    rewrite (@insert_loopOwn_eq (rev vs) b1 x1 p1 s1 es [] n q); auto; rewrite ?rev_involutive, ?app_nil_r; auto.
    + apply (@pinserts_length V V lt eqb idv T); auto.
    + rewrite rev_length. exact A1.
Qed.
Lemma insert1Own_eq (cb' : callbacks V X) (b : buf) x p s es q v : mem b (p ++ LVs es ++ s) -> incr es -> rd b q = Ok v ->
  cb_ev cb' = cb_ev cb -> cb_inc cb' (absent es [v]) (b, x) = cb_inc cb (absent es [v]) (b, x) ->
  (0 < absent es [v] -> forall b1 x1 np, cb_inc cb (absent es [v]) (b, x) = Ok (b1, x1, np) -> rd b1 q = Ok v /\ away q 1 np (length es + 1)) ->
  insert1Own chk triv lt eqb cb' b x (length p) (length es) q = insert chk triv lt eqb cb b x (length p) (length es) v.
Proof.
  intros M I R Ev Ic H. unfold insert1Own, insert. rewrite R. cbn [bind].
  destruct (@psplit V V lt eqb idv T es v I) as (A & B & EA & LA & GA).
  assert (M' : mem b (p ++ LVs (map idv (A ++ B)) ++ s)) by (rewrite map_id, <- EA; exact M).
  assert (L : length es = length A + length B) by (rewrite EA, app_length; reflexivity).
  assert (I' : StronglySorted (fun x y => lt (idv x) (idv y) = true) (A ++ B)) by (rewrite <- EA; exact I).
  rewrite (@insert_pos_ok V V triv lt eqb idv T b p s A B v (length p) (length es) M' I' LA GA eq_refl L). cbn [bind].
  rewrite (@check_present V V triv lt eqb idv T b p s A B v (length p) (length es) M' I' LA GA eq_refl L). cbn [bind]. rewrite <- EA.
  unfold absent in *. cbn [filter] in *. destruct (present es v); cbn [negb length] in *; [rewrite Ic; reflexivity|].
  rewrite Ic. destruct (cb_inc cb 1 (b, x)) as [[[b1 x1] np]| |] eqn:E1; cbn [bind]; auto. destruct (H ltac:(lia) _ _ _ eq_refl) as [R1 A1].
  rewrite (@emplaceOwn_emplace V chk triv v b1 np (length es) (length A) q R1) by (unfold still; unfold away in A1; lia). rewrite Ev. reflexivity.
Qed.

(** What is done before incrementSize does not depend on the callbacks. *)
Lemma insertsOwn_inc (cb' : callbacks V X) (b : buf) x p s es q vs : mem b (p ++ LVs es ++ s) -> incr es -> incr vs -> reads b q vs ->
  exists K, insertsOwn chk triv lt eqb cb' b x (length p) (length es) q (length vs) = bind (cb_inc cb' (absent es vs) (b, x)) K.
Proof.
  intros M I Iv R. unfold insertsOwn. destruct (Nat.eqb_spec (length es) 0) as [E0|E0].
  - destruct es; [|discriminate]. rewrite absent_nil. eauto.
  - assert (Rr : reads b q (rev (rev vs))) by (rewrite rev_involutive; exact R).
    rewrite <- (rev_length vs), (count_loopOwn_eq _ _ _ _ Rr).
    assert (M' : mem b (p ++ LVs (map idv es) ++ s)) by (rewrite map_id; exact M).
    assert (C := @count_loop_ok V V unit triv lt eqb idv T (fun _ _ _ _ => True) b p s es (length p) (length es) M' I eq_refl eq_refl (rev vs) es [] 0).
    rewrite map_id, rev_involutive in C. specialize (C Iv (eq_sym (app_nil_r _)) (fun w _ => Forall_nil _)). cbn [plus] in C. rewrite C. cbn [bind]. eauto.
Qed.
Lemma insert1Own_inc (cb' : callbacks V X) (b : buf) x p s es q v : mem b (p ++ LVs es ++ s) -> incr es -> rd b q = Ok v ->
  exists K, insert1Own chk triv lt eqb cb' b x (length p) (length es) q = bind (cb_inc cb' (absent es [v]) (b, x)) K.
Proof.
  intros M I R. unfold insert1Own. rewrite R. cbn [bind].
  destruct (@psplit V V lt eqb idv T es v I) as (A & B & EA & LA & GA).
  assert (M' : mem b (p ++ LVs (map idv (A ++ B)) ++ s)) by (rewrite map_id, <- EA; exact M).
  assert (L : length es = length A + length B) by (rewrite EA, app_length; reflexivity).
  assert (I' : StronglySorted (fun x y => lt (idv x) (idv y) = true) (A ++ B)) by (rewrite <- EA; exact I).
  rewrite (@insert_pos_ok V V triv lt eqb idv T b p s A B v (length p) (length es) M' I' LA GA eq_refl L). cbn [bind].
  rewrite (@check_present V V triv lt eqb idv T b p s A B v (length p) (length es) M' I' LA GA eq_refl L). cbn [bind]. rewrite <- EA.
  unfold absent. cbn [filter]. destruct (present es v); cbn [negb length]; eauto.
Qed.

(** Removal of values which are not in the range *)
Lemma seekOwn_eq vs : forall (b : buf) p size pos q, reads b q vs ->
  match seek lt eqb b p size pos vs with
  | Ok (np, rest) => exists q', seekOwn lt eqb b p size pos q (length vs) = Ok (np, q', length rest) /\ exists d, vs = d ++ rest ++ skipn (length (d ++ rest)) vs /\
      (rest <> [] -> vs = d ++ rest /\ q' = q + length d)
  | Abort => seekOwn lt eqb b p size pos q (length vs) = Abort
  | Fault f => seekOwn lt eqb b p size pos q (length vs) = Fault f
  end.
Proof.
  induction vs as [|v vs IH]; intros b p size pos q R; [exists q; split; [reflexivity|]; exists []; split; [reflexivity|congruence]|].
  cbn [seek length seekOwn]. destruct (reads_tail R) as [-> R']. cbn [bind]. destruct (find lt b (p + pos) (size - pos) v) as [k| |]; cbn [bind]; auto.
  destruct (pos + k =? size); [exists q; split; [reflexivity|]; exists []; split; [reflexivity|congruence]|].
  destruct (rd b (p + (pos + k))) as [y| |]; cbn [bind]; auto. destruct (eqb y v).
  - exists q. split; [reflexivity|]. exists []. split; [cbn [app length skipn]; rewrite skipn_all, app_nil_r; reflexivity|]. intros _. split; [reflexivity|cbn; lia].
  - specialize (IH b p size (pos + k) (q + 1) R'). destruct (seek lt eqb b p size (pos + k) vs) as [[np rest]| |]; [|exact IH|exact IH].
    destruct IH as (q' & E & d & D1 & D2). exists q'. split; [exact E|]. exists (v :: d). split; [cbn [app length skipn]; f_equal; exact D1|].
    intros N. destruct (D2 N) as [-> ->]. split; [reflexivity|cbn [length]; lia].
Qed.
Lemma find_bound (b : buf) p size v k : find lt b p size v = Ok k -> k <= size.
Proof.
  unfold find. assert (G : forall f lo up, lo <= up -> find_loop lt f b p v lo up = Ok k -> k <= up); [|intros H; apply (G size 0 size); [lia|exact H]].
  induction f as [|f IH]; intros lo up L; cbn [find_loop]; destruct (Nat.eqb_spec lo up); try discriminate; try (intros [= <-]; lia).
  pose proof (Nat.div_lt_upper_bound (lo + up) 2 up ltac:(lia) ltac:(lia)). pose proof (Nat.div_le_lower_bound (lo + up) 2 lo ltac:(lia) ltac:(lia)).
  destruct (rd b (p + (lo + up) / 2)) as [y| |]; cbn [bind]; try discriminate. destruct (lt y v); intros E.
  - apply IH in E; [exact E|lia].
  - apply IH in E; [|lia]. lia.
Qed.
Lemma seek_bound vs : forall (b : buf) p size pos np rest, pos <= size -> seek lt eqb b p size pos vs = Ok (np, rest) -> rest <> [] ->
  pos <= np < size /\ exists v r', rest = v :: r' /\ In v vs /\ exists y, rd b (p + np) = Ok y /\ eqb y v = true.
Proof.
  induction vs as [|v vs IH]; intros b p size pos np rest L E N; cbn [seek] in E; [injection E as _ <-; congruence|].
  destruct (find lt b (p + pos) (size - pos) v) as [k| |] eqn:Fk; cbn [bind] in E; try discriminate. apply find_bound in Fk.
  destruct (Nat.eqb_spec (pos + k) size); [injection E as _ <-; congruence|]. destruct (rd b (p + (pos + k))) as [y| |] eqn:Ry; cbn [bind] in E; try discriminate.
  destruct (eqb y v) eqn:Q.
  - injection E as <- <-. split; [lia|]. exists v, vs. repeat split; [simpl; auto|]. exists y. auto.
  - apply IH in E; [|lia|exact N]. destruct E as (B & v' & r' & -> & Iv & Y). split; [lia|]. exists v', r'. repeat split; [simpl; auto|exact Y].
Qed.
Lemma remove_loopOwn_away fuel : forall (b : buf) x p size nR pos q v0 vs, incr (v0 :: vs) -> reads b q (v0 :: vs) -> away q (length (v0 :: vs)) p size ->
  rd b (p + pos) = Ok v0 -> nR <= pos -> pos < size ->
  remove_loopOwn chk triv lt eqb cb fuel b x p size nR pos q (length (v0 :: vs)) = remove_loop chk triv lt eqb cb fuel b x p size nR pos (v0 :: vs).
Proof.
  induction fuel as [|fuel IH]; intros b x p size nR pos q v0 vs I R Aw R0 Ln Lp; [reflexivity|]. cbn [length remove_loopOwn remove_loop].
  destruct (reads_tail R) as [_ R']. pose proof (seekOwn_eq p size pos R') as S. destruct (seek lt eqb b p size pos vs) as [[np rest]| |] eqn:Es; [|rewrite S; reflexivity|rewrite S; reflexivity].
  destruct S as (q' & -> & d & _ & D). cbn [bind].
  assert (Np : pos < match rest with [] => size | _ :: _ => np end <= size).
  { destruct rest as [|v rest]; [lia|]. destruct (@seek_bound vs b p size pos np (v :: rest) ltac:(lia) Es ltac:(discriminate)) as (B & v' & r' & Q & Iv & y & Ry & Ey). injection Q as <- <-.
    destruct (Nat.eq_dec np pos) as [->|]; [|lia]. exfalso. rewrite R0 in Ry. injection Ry as <-. apply (eqb_true T) in Ey. subst v.
    inversion I as [|? ? ? F]; subst. rewrite Forall_forall in F. specialize (F v0 Iv). rewrite (irr W) in F. discriminate. }
  assert (Em : match length rest with 0 => size | S _ => np end = match rest with [] => size | _ :: _ => np end) by (destruct rest; reflexivity). rewrite Em.
  set (np' := match rest with [] => size | _ :: _ => np end) in *.
  destruct (ArrayManip.shiftDown chk triv b p np' (pos + 1) (nR + 1)) as [b'| |] eqn:Ed; cbn [bind]; auto. destruct (cb_ev cb _ x) as [x'| |]; cbn [bind]; auto.
  destruct (Nat.eqb_spec np' size); [reflexivity|]. destruct rest as [|v rest]; [subst np'; congruence|]. subst np'. destruct (D ltac:(discriminate)) as [Dv ->].
  destruct (@seek_bound vs b p size pos np (v :: rest) ltac:(lia) Es ltac:(discriminate)) as (B & v' & r' & Q & Iv & y & Ry & Ey). injection Q as <- <-. apply (eqb_true T) in Ey. subst y.
  assert (K : forall j, j < p \/ p + np <= j -> nth_error b' j = nth_error b j) by (intros j Hj; eapply shiftDown_nth; [exact Ed|lia|lia]).
  assert (Lv : length vs = length d + S (length rest)) by (rewrite Dv, app_length; reflexivity). unfold away in Aw. cbn [length] in Aw.
  apply IH.
  - inversion I as [|? ? Iv' _]; subst. apply strong_app in Iv'. tauto.
  - eapply reads_keep; [apply reads_skip; rewrite <- Dv; exact R'|]. intros j Hj. cbn [length] in Hj. apply K. lia.
  - unfold away. cbn [length]. lia.
  - rewrite <- Ry. apply rd_nth_eq, K. lia.
  - lia.
  - lia.
Qed.
Lemma removesOwn_away (b : buf) x p size q vs : incr vs -> reads b q vs -> away q (length vs) p size ->
  removesOwn chk triv lt eqb cb b x p size q (length vs) = removes chk triv lt eqb cb b x p size vs.
Proof.
  intros I R Aw. unfold removesOwn, removes. pose proof (seekOwn_eq p size 0 R) as S. destruct (seek lt eqb b p size 0 vs) as [[np rest]| |] eqn:Es; [|rewrite S; reflexivity|rewrite S; reflexivity].
  destruct S as (q' & -> & d & _ & D). cbn [bind]. destruct rest as [|v rest]; [reflexivity|]. destruct (D ltac:(discriminate)) as [Dv ->].
  destruct (@seek_bound vs b p size 0 np (v :: rest) ltac:(lia) Es ltac:(discriminate)) as (B & v' & r' & Q & Iv & y & Ry & Ey). injection Q as <- <-. apply (eqb_true T) in Ey. subst y.
  assert (Lv : length vs = length d + S (length rest)) by (rewrite Dv, app_length; reflexivity). unfold away in Aw.
  rewrite <- (remove_loopOwn_away (length vs) x (p := p) (size := size) (nR := 0) (pos := np) (q := q + length d) (v0 := v) (vs := rest)); auto.
  - rewrite Dv in I. apply strong_app in I. tauto.
  - apply reads_skip. rewrite <- Dv. exact R.
  - unfold away. cbn [length]. lia.
  - lia.
  - lia.
Qed.

(** Removal of values of the range itself: they are next to each other, so nothing is shifted before all were read. *)
Lemma remove_loopOwn_self s D rest : forall (b : buf) x p A v0 nR fuel, mem b (p ++ LVs (A ++ v0 :: rest ++ D) ++ s) -> incr (A ++ v0 :: rest ++ D) ->
  remove_loopOwn chk triv lt eqb cb fuel b x (length p) (length (A ++ v0 :: rest ++ D)) nR (length A) (length p + length A) (length (v0 :: rest)) =
  remove_loop chk triv lt eqb cb fuel b x (length p) (length (A ++ v0 :: rest ++ D)) nR (length A) (v0 :: rest).
Proof.
  induction rest as [|v1 rest IH]; intros b x p A v0 nR fuel M I; (destruct fuel as [|fuel]; [reflexivity|]).
  - cbn [length remove_loopOwn remove_loop seekOwn seek bind]. rewrite !Nat.eqb_refl.
    destruct (ArrayManip.shiftDown _ _ _ _ _ _ _); cbn [bind]; auto.
  - cbn [length remove_loopOwn remove_loop seekOwn seek]. cbn [app] in M, I |- *. set (r := A ++ v0 :: v1 :: rest ++ D) in *.
    assert (Lr : length r = length A + S (S (length (rest ++ D)))) by (unfold r; rewrite app_length; reflexivity).
    assert (R1 : rd b (length p + length A + 1) = Ok v1).
    { eapply (@rd_ok V triv b (p ++ LVs (A ++ [v0])) v1 (LVs (rest ++ D) ++ s)); [|len]. eapply mem_cast; [exact M|]. unfold r. repeat (rewrite map_app || cbn [map]). lapp. reflexivity. }
    assert (I' := I). unfold r in I'. apply strong_app in I'. destruct I' as (_ & I' & _). inversion I' as [|? ? I1 F1]; subst. inversion F1 as [|? ? L01 _]; subst. inversion I1 as [|? ? _ F2]; subst.
    rewrite R1. cbn [bind]. assert (Fi : find lt b (length p + length A) (length r - length A) v1 = Ok 1).
    { change 1 with (length [v0]). eapply (@find_ok V triv lt b (p ++ LVs A) s [v0] (v1 :: rest ++ D) v1).
      - eapply mem_cast; [exact M|]. unfold r. repeat (rewrite map_app || cbn [map app]). lapp. reflexivity.
      - repeat constructor. exact L01.
      - constructor; [apply (irr W)|]. eapply Forall_impl; [|exact F2]. intros y Hy. cbn beta. destruct (lt y v1) eqn:Q; auto. rewrite <- (irr W v1). symmetry. exact (trans W Hy Q).
      - len.
      - rewrite Lr. cbn [length]. lia. }
    rewrite Fi. cbn [bind]. destruct (Nat.eqb_spec (length A + 1) (length r)) as [Q|_]; [lia|].
    replace (length p + (length A + 1)) with (length p + length A + 1) by lia. rewrite R1. cbn [bind]. rewrite (eqb_refl T). cbn [bind].
    assert (Sd : forall n, ArrayManip.shiftDown chk triv b (length p) (length A + 1) (length A + 1) n = Ok b).
    { intros n. unfold ArrayManip.shiftDown, ArrayManip.check_insert_bounds. rewrite Nat.ltb_irrefl. unfold check_if. destruct chk; cbn [error_if bind]; rewrite Nat.sub_diag; destruct (n =? 0); reflexivity. }
    cbn [length]. rewrite !Sd. cbn [bind]. destruct (cb_ev cb _ x) as [x'| |]; cbn [bind]; auto.
    destruct (Nat.eqb_spec (length A + 1) (length r)) as [Q|_]; [lia|].
    assert (Er : r = (A ++ [v0]) ++ v1 :: rest ++ D) by (unfold r; rewrite <- app_assoc; reflexivity).
    specialize (IH b x' p (A ++ [v0]) v1 (nR + 1) fuel). rewrite <- Er in IH. specialize (IH M I). rewrite app_length in IH. cbn [length] in IH.
    rewrite Nat.add_assoc in IH. exact IH.
Qed.
Lemma removesOwn_self (b : buf) x p s A vs D : mem b (p ++ LVs (A ++ vs ++ D) ++ s) -> incr (A ++ vs ++ D) ->
  removesOwn chk triv lt eqb cb b x (length p) (length (A ++ vs ++ D)) (length p + length A) (length vs) =
  removes chk triv lt eqb cb b x (length p) (length (A ++ vs ++ D)) vs.
Proof.
  intros M I. destruct vs as [|v0 rest]; [reflexivity|]. unfold removesOwn, removes. cbn [app] in *. set (r := A ++ v0 :: rest ++ D) in *.
  assert (Lr : length r = length A + S (length (rest ++ D))) by (unfold r; rewrite app_length; reflexivity).
  assert (R0 : rd b (length p + length A) = Ok v0).
  { eapply (@rd_ok V triv b (p ++ LVs A) v0 (LVs (rest ++ D) ++ s)); [|len]. eapply mem_cast; [exact M|]. unfold r. repeat (rewrite map_app || cbn [map]). lapp. reflexivity. }
  assert (I' := I). unfold r in I'. apply strong_app in I'. destruct I' as (_ & I' & LA). inversion I' as [|? ? I1 F1]; subst.
  assert (Fi : find lt b (length p + 0) (length r - 0) v0 = Ok (length A)).
  { rewrite Nat.add_0_r, Nat.sub_0_r. eapply (@find_ok V triv lt b p s A (v0 :: rest ++ D) v0).
    - exact M.
    - apply Forall_forall. intros y Hy. apply LA; [exact Hy|simpl; auto].
    - constructor; [apply (irr W)|]. eapply Forall_impl; [|exact F1]. intros y Hy. cbn beta. destruct (lt y v0) eqn:Q; auto. rewrite <- (irr W v0). symmetry. exact (trans W Hy Q).
    - reflexivity.
    - exact Lr. }
  cbn [length seekOwn seek]. rewrite R0. cbn [bind]. rewrite Fi. cbn [bind plus]. destruct (Nat.eqb_spec (length A) (length r)) as [Q|_]; [lia|]. rewrite R0. cbn [bind]. rewrite (eqb_refl T). cbn [bind length].
  pose proof (@remove_loopOwn_self s D rest b x p A v0 0 (S (length rest)) M I) as E. cbn [length] in E. fold r in E. rewrite E. reflexivity.
Qed.
End Loops.
End Own.
