(** SortedArray and ArrayOfSets with elements of the container itself as arguments: the calls do the same as with copies of the elements. *)
From Coq Require Import List Arith ZArith Lia Bool Sorting.Sorted.
From Verif Require Import Base BaseProofs Mem MemProofs ArrayManipProofs BufferManip BufferManipProofs Sorted SortedSpec SortedProofs SortedProofs2 SortedProofs3
  SortedArray SortedArraySpec SortedArrayProofs AoA AoASpec AoALayout AoAProofs AoAProofs2 AoAProofs3 AoS SetsProofs
  OwnRange OwnRangeProofs OwnRangeProofs2 OwnRangeProofs3 SortedOwn SortedOwnProofs.
From Verif Require ArrayManip.
Import ListNotations.
Set Implicit Arguments.
Unset Strict Implicit.

Section Pure.
Variable V : Type.
Variable lt eqb : V -> V -> bool.
Hypothesis T : total_order lt eqb.
Notation incr l := (StronglySorted (fun x y => lt x y = true) l).
Notation idv := (fun v : V => v).
Notation absent := (absent eqb idv).
Notation sub rk l n := (firstn n (skipn l rk)).
Lemma sub_parts (r : list V) l n : l + n <= length r -> r = firstn l r ++ sub r l n ++ skipn (l + n) r.
Proof. intros H. rewrite <- (firstn_skipn l r) at 1. f_equal. rewrite <- (firstn_skipn n (skipn l r)) at 1. f_equal. clear H. revert r. induction l as [|l IH]; intros r; [reflexivity|]. destruct r; [destruct n; reflexivity|]. apply IH. Qed.
Lemma sub_incr (r : list V) l n : l + n <= length r -> incr r -> incr (sub r l n).
Proof. intros H I. rewrite (sub_parts H) in I. apply strong_app in I. destruct I as (_ & I & _). apply strong_app in I. tauto. Qed.
Lemma sub_in (r : list V) l n x : In x (sub r l n) -> In x r.
Proof. intros H. rewrite <- (firstn_skipn l r). apply in_app_iff. right. rewrite <- (firstn_skipn n (skipn l r)). apply in_app_iff. auto. Qed.
Lemma absent_self (r vs : list V) : (forall x, In x vs -> In x r) -> absent r vs = 0.
Proof.
  intros H. unfold SortedProofs2.absent. replace (filter (fun w => negb (present eqb idv r w)) vs) with (@nil V); [reflexivity|].
  symmetry. induction vs as [|v vs IH]; [reflexivity|]. cbn [filter].
  assert (P : present eqb idv r v = true).
  { unfold present. apply existsb_exists. exists v. split; [apply H; simpl; auto|apply (eqb_refl T)]. }
  rewrite P. cbn [negb]. apply IH. intros x Hx. apply H. simpl. auto.
Qed.
End Pure.

Section SArr.
Variable V : Type.
Variable chk triv : bool.
Variable lt eqb : V -> V -> bool.
Hypothesis T : total_order lt eqb.
Notation kind := BMalloc.
Notation idv := (fun v : V => v).
Notation sa_ok := (@sa_ok V triv lt).
Notation sub rk l n := (firstn n (skipn l rk)).

Lemma cb_zero (a : sarray V) l : sa_ok a l -> cb_inc (s_cb V chk triv kind (s_size a)) 0 (s_buf a, tt) = Ok (s_buf a, tt, 0) /\
  cb_inc (s_cbOwn V chk triv kind (s_size a)) 0 (s_buf a, tt) = Ok (s_buf a, tt, 0).
Proof.
  intros (H & Hs & _). pose proof (holds_cap H) as C.
  assert (E : cb_inc (s_cb V chk triv kind (s_size a)) 0 (s_buf a, tt) = Ok (s_buf a, tt, 0)).
  { cbn [cb_inc s_cb fst]. unfold dynamicReserve, capacity. rewrite check_ok by lia. cbn [bind]. destruct (Nat.ltb_spec (length (s_buf a)) (s_size a + 0)); [lia|reflexivity]. }
  split; [exact E|]. cbn [cb_inc s_cbOwn losing fst bind]. unfold capacity.
  destruct (Nat.ltb_spec (length (s_buf a)) (s_size a + 0)); [lia|]. rewrite E. reflexivity.
Qed.
Lemma sa_mem a l : sa_ok a l -> mem triv (s_buf a) ([] ++ map (@LV V) l ++ repeat LN (length (s_buf a) - length l)).
Proof. intros (H & _). apply holds_mem. exact H. Qed.
Lemma sa_reads a l : sa_ok a l -> reads (s_buf a) 0 l.
Proof.
  intros H x v N. eapply rd_nth; [exact (sa_mem H)|]. assert (x < length l) by (apply nth_error_Some; congruence).
  cbn [app plus]. rewrite nth_error_app1 by len. apply map_nth_error. exact N.
Qed.
Lemma s_slot_ok a l i v : sa_ok a l -> nth_error l i = Some v -> s_slot chk a i = Ok i /\ rd (s_buf a) i = Ok v.
Proof.
  intros H N. split; [|exact (sa_reads H N)]. unfold s_slot. destruct H as (_ & -> & _). assert (i < length l) by (apply nth_error_Some; congruence).
  destruct (Nat.leb_spec (length l) i); [lia|]. destruct chk; reflexivity.
Qed.
Lemma s_insertOwn_ok a l i v : sa_ok a l -> nth_error l i = Some v ->
  s_insertOwn chk triv kind lt eqb a i = s_insert chk triv kind lt eqb a v.
Proof.
  intros H N. destruct (s_slot_ok H N) as [E R]. destruct (cb_zero H) as [Z1 Z2]. pose proof (sa_mem H) as M. destruct H as (_ & Hs & I).
  assert (A0 : absent eqb idv l [v] = 0) by (apply (absent_self T); intros x [<-|[]]; exact (nth_error_In _ _ N)).
  unfold s_insertOwn, s_insert. rewrite E. cbn [bind]. rewrite Hs in *.
  pose proof (@insert1Own_eq V unit chk triv lt eqb T (s_cb V chk triv kind (length l)) (s_cbOwn V chk triv kind (length l)) (s_buf a) tt [] _ l i v M I R eq_refl) as Q.
  rewrite A0, Z1, Z2 in Q. cbn [length] in Q. rewrite Q; [reflexivity|reflexivity|lia].
Qed.
Lemma s_insertsOwn_ok a l i n : sa_ok a l -> i + n <= length l ->
  s_insertsOwn chk triv kind lt eqb a i n = s_inserts chk triv kind lt eqb a (sub l i n).
Proof.
  intros H Ln. destruct (cb_zero H) as [Z1 Z2]. pose proof (sa_mem H) as M. pose proof (sa_reads H) as R. destruct H as (_ & Hs & I).
  assert (A0 : absent eqb idv l (sub l i n) = 0) by (apply (absent_self T); intros x; apply sub_in).
  unfold s_insertsOwn, s_inserts. rewrite Hs in *. apply (fun R => reads_sub R Ln) in R. cbn [plus] in R.
  pose proof (@insertsOwn_eq V unit chk triv lt eqb T (s_cb V chk triv kind (length l)) (s_cbOwn V chk triv kind (length l)) (s_buf a) tt [] _ l i (sub l i n) M I (sub_incr Ln I) R eq_refl) as Q.
  rewrite (sub_length Ln), A0, Z1, Z2 in Q. cbn [length] in Q. rewrite Q; [reflexivity|reflexivity|lia].
Qed.
Lemma s_removeOwn_ok a l i v : sa_ok a l -> nth_error l i = Some v ->
  s_removeOwn chk triv kind lt eqb a i = s_remove chk triv kind lt eqb a v.
Proof.
  intros H N. destruct (s_slot_ok H N) as [E R]. unfold s_removeOwn, s_remove, remove1Own. rewrite E. cbn [bind]. rewrite R. cbn [bind]. reflexivity.
Qed.
Lemma s_removesOwn_ok a l i n : sa_ok a l -> i + n <= length l ->
  s_removesOwn chk triv kind lt eqb a i n = s_removes chk triv kind lt eqb a (sub l i n).
Proof.
  intros H Ln. pose proof (sa_mem H) as M. destruct H as (_ & Hs & I). unfold s_removesOwn, s_removes. rewrite Hs.
  rewrite (sub_parts Ln) in M, I.
  pose proof (@removesOwn_self V unit chk triv lt eqb T (s_cbOwn V chk triv kind (length l)) (s_buf a) tt [] _ _ _ _ M I) as Q.
  cbn [length plus] in Q. rewrite <- (sub_parts Ln), (sub_length Ln), firstn_length, Nat.min_l in Q by lia. rewrite Q.
  assert (Ev : forall vs b x p size, removes chk triv lt eqb (s_cbOwn V chk triv kind (length l)) b x p size vs = removes chk triv lt eqb (s_cb V chk triv kind (length l)) b x p size vs); [|rewrite Ev; reflexivity].
  intros vs b x p size. unfold removes. repeat (match goal with |- bind ?m _ = bind ?m _ => destruct m as [[? ?]| |]; cbn [bind]; auto end).
Qed.
End SArr.

Section Sets.
Variable V W : Type.
Variable chk tv tw : bool.
Variable fw : V -> W.
Variable lt eqb : V -> V -> bool.
Hypothesis T : total_order lt eqb.
Notation kind := BMalloc.
Notation dual := false.
Notation aoa := (aoa V W).
Notation row := (list V * nat)%type.
Notation rows := (list row).
Notation idv := (fun v : V => v).
Notation incr l := (StronglySorted (fun x y => lt x y = true) l).
Notation aok := (@aok V V W idv fw tv tw false).
Notation iok := (@iok V V W).
Notation absent := (absent eqb idv).
Notation sub rk l n := (firstn n (skipn l rk)).
Notation cbv := (aos_cb V W chk tv tw dual kind).
Notation cbo := (aos_cbOwn V W chk tv tw dual kind).
Notation moves := (@moves V W).
Implicit Types a : aoa.
Implicit Types A B L : rows.

Lemma cb_grow a A r g B n : aok a (A ++ (r, g) :: B) ->
  cb_inc (cbv (length A)) n (vals a, (a, 0)) =
  (a1 <- dynamicallyGrowArray chk tv tw dual kind a (length A) n ;; p <- getSetValues chk a1 (length A) ;; Ok (vals a1, (a1, 0), p)).
Proof.
  intros H. cbn [cb_inc aos_cb grow_cb]. assert (Ea : set_vals (vals a) a = a) by (destruct a; reflexivity). rewrite Ea.
  unfold dynamicallyGrowArray. rewrite !bind_assoc. destruct (sizeOfArray chk a (length A)); cbn [bind]; auto. rewrite bind_assoc. reflexivity.
Qed.
Lemma cb_own a A r g B n : aok a (A ++ (r, g) :: B) ->
  cb_inc (cbo (length A)) n (vals a, (a, 0)) = (y <- cb_inc (cbv (length A)) n (vals a, (a, 0)) ;; _ <- dangles kind (moves a A r g B n) ;; Ok y).
Proof.
  intros H. unfold aos_cbOwn, losing. cbn [cb_inc fst snd]. assert (Ea : set_vals (vals a) a = a) by (destruct a; reflexivity). rewrite Ea.
  rewrite (reallocates_eq chk n H). cbn [bind]. reflexivity.
Qed.
Lemma cb_own_stay a A r g B n : aok a (A ++ (r, g) :: B) -> moves a A r g B n = false ->
  cb_inc (cbo (length A)) n (vals a, (a, 0)) = cb_inc (cbv (length A)) n (vals a, (a, 0)).
Proof. intros H Mv. rewrite (cb_own n H), Mv. destruct (cb_inc (cbv (length A)) n (vals a, (a, 0))) as [y| |]; reflexivity. Qed.
Lemma cb_own_move a A r g B n : aok a (A ++ (r, g) :: B) -> moves a A r g B n = true ->
  cb_inc (cbo (length A)) n (vals a, (a, 0)) = Fault FDangling \/ (tv = false /\ cb_inc (cbo (length A)) n (vals a, (a, 0)) = Fault FMove).
Proof.
  intros H Mv. rewrite (cb_own n H), Mv, (cb_grow n H). destruct (grow_ok chk n H) as [(a1 & E1 & H1)|[Tv E1]]; rewrite E1; cbn [bind].
  - left. destruct H1 as (I1 & _). rewrite (row_values idv chk I1). reflexivity.
  - right. split; auto. apply orb_false_iff in Tv. destruct Tv as [Tv _]. rewrite allt_tv in Tv. exact Tv.
Qed.
(** After incrementSize *)
Lemma cb_post a A r g B k rk gk l n m : aok a (A ++ (r, g) :: B) -> nth_error (A ++ (r, g) :: B) k = Some (rk, gk) -> l + n <= length rk ->
  moves a A r g B m = false -> k < length A \/ (k <> length A /\ m <= g) ->
  forall b1 x1 np, cb_inc (cbv (length A)) m (vals a, (a, 0)) = Ok (b1, x1, np) ->
  exists p1 s1, np = length p1 /\ mem tv b1 (p1 ++ map (@LV V) r ++ repeat LN m ++ s1) /\
    reads b1 (total (firstn k (A ++ (r, g) :: B)) + l) (sub rk l n) /\ away (total (firstn k (A ++ (r, g) :: B)) + l) n np (length r + m).
Proof.
  intros H N Ln Mv K b1 x1 np E. rewrite (cb_grow m H) in E.
  destruct (@grown_reads V W chk tv tw fw a A r g B k rk gk l n m H Mv N Ln ltac:(lia)) as (a1 & _ & D & H1 & R1).
  rewrite D in E. cbn [bind] in E. destruct H1 as (I1 & Ev & _). rewrite (row_values idv chk I1) in E. cbn [bind] in E. injection E as <- _ <-.
  destruct (lay_row Ev) as [q M]. rewrite map_id in M.
  set (g' := grown (length r) (length r + g) m - length r) in *.
  assert (Lg : m <= g') by (unfold g', grown; destruct (Nat.ltb_spec (length r + g) (length r + m)); lia).
  exists (flat idv A), (repeat LN (g' - m) ++ flat idv B ++ repeat LN q). split; [reflexivity|]. split; [|split; [exact R1|]].
  - eapply mem_cast; [exact M|]. do 2 f_equal. rewrite !app_assoc, <- repeat_app_add. do 3 f_equal. lia.
  - rewrite flat_length. unfold away. destruct K as [K|[K K']].
    + left. exact (before N Ln K).
    + destruct (Nat.lt_ge_cases k (length A)); [left; apply (before N Ln); lia|]. right.
      pose proof (@after V A r g B k ltac:(lia)). lia.
Qed.

Section Call.
Variable a : aoa.
Variable A B : rows.
Variable r : list V.
Variable g k : nat.
Variable rk : list V.
Variable gk : nat.
Notation L := (A ++ (r, g) :: B).
Hypothesis H : aok a L.
Hypothesis I : incr r.
Hypothesis N : nth_error L k = Some (rk, gk).
Hypothesis Ik : incr rk.

Lemma row_mem : exists s, mem tv (vals a) (flat idv A ++ map (@LV V) r ++ s).
Proof. destruct H as (_ & Ev & _). destruct (lay_row Ev) as [q M]. rewrite map_id in M. eauto. Qed.
Lemma k_len : k < length L.
Proof. apply nth_error_Some. rewrite N. discriminate. Qed.
Lemma same_row : k = length A -> rk = r /\ gk = g.
Proof. intros E. rewrite E, row_nth in N. injection N as -> ->. auto. Qed.
Lemma k_reads l n : l + n <= length rk -> reads (vals a) (total (firstn k L) + l) (sub rk l n).
Proof. intros Ln. apply reads_sub; [|exact Ln]. eapply row_reads; [exact H|exact N]. Qed.
Lemma k_rd l v : nth_error rk l = Some v -> rd (vals a) (total (firstn k L) + l) = Ok v.
Proof. intros Hv. exact (@row_reads V W tv tw fw a L k rk gk H N l v Hv). Qed.

(** Where the values may be: the target row takes [m] values. *)
Definition place (m : nat) : Prop := m = 0 \/ k < length A \/ m <= g.

Lemma insertsOwn_ok l n : l + n <= length rk -> moves a A r g B (absent r (sub rk l n)) = false -> place (absent r (sub rk l n)) ->
  insertsIntoSetOwn chk tv tw dual kind lt eqb a (length A) k l n = insertsIntoSet chk tv tw dual kind lt eqb a (length A) (sub rk l n).
Proof.
  intros Ln Mv Pl. pose proof H as (Io & _). unfold insertsIntoSetOwn, insertsIntoSet, insertsIntoSetImpl.
  rewrite (address_at chk l Io k_len). cbn [bind]. rewrite (row_check chk Io). cbn [bind]. rewrite (row_size chk Io). cbn [bind].
  rewrite (row_values idv chk Io). cbn [bind]. destruct row_mem as [s M].
  pose proof (@insertsOwn_eq V (aoa * nat) chk tv lt eqb T (cbv (length A)) (cbo (length A)) (vals a) (a, 0) _ s r (total (firstn k L) + l) (sub rk l n)
    M I (sub_incr Ln Ik) (k_reads Ln) eq_refl (cb_own_stay H Mv)) as Q.
  rewrite (sub_length Ln) in Q. rewrite Q; [reflexivity|]. clear Q. intros P0. eapply cb_post; eauto.
  destruct Pl as [Pl|[Pl|Pl]]; [lia|lia|]. right. split; [|exact Pl]. intros E. destruct (same_row E) as [Er _].
  rewrite (absent_self T) in P0; [lia|]. intros x Hx. rewrite <- Er. exact (sub_in Hx).
Qed.
Lemma insertsOwn_moves l n : l + n <= length rk -> moves a A r g B (absent r (sub rk l n)) = true ->
  insertsIntoSetOwn chk tv tw dual kind lt eqb a (length A) k l n = Fault FDangling \/
  (tv = false /\ insertsIntoSetOwn chk tv tw dual kind lt eqb a (length A) k l n = Fault FMove).
Proof.
  intros Ln Mv. pose proof H as (Io & _). unfold insertsIntoSetOwn.
  rewrite (address_at chk l Io k_len). cbn [bind]. rewrite (row_check chk Io). cbn [bind]. rewrite (row_size chk Io). cbn [bind].
  rewrite (row_values idv chk Io). cbn [bind]. destruct row_mem as [s M].
  destruct (@insertsOwn_inc V (aoa * nat) chk tv lt eqb T (cbo (length A)) (vals a) (a, 0) _ s r (total (firstn k L) + l) (sub rk l n)
    M I (sub_incr Ln Ik) (k_reads Ln)) as [K Q].
  rewrite (sub_length Ln) in Q. rewrite Q. destruct (cb_own_move H Mv) as [-> |[-> ->]]; cbn [bind]; auto.
Qed.
Lemma insertOwn_ok l v : nth_error rk l = Some v -> moves a A r g B (absent r [v]) = false -> place (absent r [v]) ->
  insertIntoSetOwn chk tv tw dual kind lt eqb a (length A) k l = insertIntoSet chk tv tw dual kind lt eqb a (length A) v.
Proof.
  intros Hv Mv Pl. pose proof H as (Io & _). unfold insertIntoSetOwn, insertIntoSet, insertIntoSetImpl.
  assert (Ll : l < length rk) by (apply nth_error_Some; congruence).
  rewrite (slot_at chk Io N Ll). cbn [bind]. rewrite (row_check chk Io). cbn [bind]. rewrite (row_size chk Io). cbn [bind].
  rewrite (row_values idv chk Io). cbn [bind]. destruct row_mem as [s M].
  rewrite (@insert1Own_eq V (aoa * nat) chk tv lt eqb T (cbv (length A)) (cbo (length A)) (vals a) (a, 0) _ s r (total (firstn k L) + l) v
    M I (k_rd Hv) eq_refl (cb_own_stay H Mv)); [reflexivity|]. intros P0 b1 x1 np E.
  assert (A1 : absent r [v] = 1) by (revert P0; unfold SortedProofs2.absent; cbn [filter]; destruct (negb _); cbn [length]; lia).
  destruct (@cb_post a A r g B k rk gk l 1 (absent r [v]) H N ltac:(lia) Mv) with (b1 := b1) (x1 := x1) (np := np) as (p1 & s1 & _ & _ & R1 & Aw); auto.
  - destruct Pl as [Pl|[Pl|Pl]]; [lia|lia|]. right. split; [|exact Pl]. intros Q. destruct (same_row Q) as [Er _].
    rewrite (absent_self T) in P0; [lia|]. intros x [<-|[]]. rewrite <- Er. exact (nth_error_In _ _ Hv).
  - rewrite A1 in Aw. split; [|exact Aw]. rewrite <- (Nat.add_0_r (_ + l)). apply R1.
    rewrite <- (firstn_skipn l rk), nth_error_app2 in Hv by (rewrite firstn_length; lia).
    rewrite firstn_length, Nat.min_l, Nat.sub_diag in Hv by lia. destruct (skipn l rk); [discriminate|]. exact Hv.
Qed.
Lemma insertOwn_moves l v : nth_error rk l = Some v -> moves a A r g B (absent r [v]) = true ->
  insertIntoSetOwn chk tv tw dual kind lt eqb a (length A) k l = Fault FDangling \/
  (tv = false /\ insertIntoSetOwn chk tv tw dual kind lt eqb a (length A) k l = Fault FMove).
Proof.
  intros Hv Mv. pose proof H as (Io & _). unfold insertIntoSetOwn.
  assert (Ll : l < length rk) by (apply nth_error_Some; congruence).
  rewrite (slot_at chk Io N Ll). cbn [bind]. rewrite (row_check chk Io). cbn [bind]. rewrite (row_size chk Io). cbn [bind].
  rewrite (row_values idv chk Io). cbn [bind]. destruct row_mem as [s M].
  destruct (@insert1Own_inc V (aoa * nat) chk tv lt eqb T (cbo (length A)) (vals a) (a, 0) _ s r (total (firstn k L) + l) v M I (k_rd Hv)) as [K Q].
  rewrite Q. destruct (cb_own_move H Mv) as [-> |[-> ->]]; cbn [bind]; auto.
Qed.
Lemma removeOwn_ok l v : nth_error rk l = Some v ->
  removeFromSetOwn chk tv lt eqb a (length A) k l = removeFromSet chk tv lt eqb a (length A) v.
Proof.
  intros Hv. pose proof H as (Io & _). assert (Ll : l < length rk) by (apply nth_error_Some; congruence).
  unfold removeFromSetOwn, removeFromSet, removeFromSetImpl, remove1Own. rewrite (slot_at chk Io N Ll). cbn [bind]. rewrite (k_rd Hv). reflexivity.
Qed.
Lemma removesOwn_ok l n : l + n <= length rk ->
  removesFromSetOwn chk tv lt eqb a (length A) k l n = removesFromSet chk tv lt eqb a (length A) (sub rk l n).
Proof.
  intros Ln. pose proof H as (Io & _). unfold removesFromSetOwn, removesFromSet, removesFromSetImpl.
  rewrite (address_at chk l Io k_len). cbn [bind]. rewrite (row_check chk Io). cbn [bind]. rewrite (row_size chk Io). cbn [bind].
  rewrite (row_values idv chk Io). cbn [bind].
  assert (Q : removesOwn chk tv lt eqb (view_cb V W chk (length A)) (vals a) (a, 0) (length (flat idv A)) (length r) (total (firstn k L) + l) n =
              removes chk tv lt eqb (view_cb V W chk (length A)) (vals a) (a, 0) (length (flat idv A)) (length r) (sub rk l n)); [|rewrite Q; reflexivity].
  destruct (Nat.eq_dec k (length A)) as [E|E].
  - destruct (same_row E) as [Er _]. destruct row_mem as [s M]. rewrite Er in Ln |- *. pose proof M as M'. pose proof I as I'. rewrite (sub_parts Ln) in M', I'.
    pose proof (@removesOwn_self V (aoa * nat) chk tv lt eqb T (view_cb V W chk (length A)) (vals a) (a, 0) _ _ _ _ _ M' I') as Q.
    rewrite <- (sub_parts Ln), (sub_length Ln), firstn_length, Nat.min_l in Q by lia.
    rewrite E, firstn_app_exact by auto. rewrite <- (flat_length idv A). exact Q.
  - pose proof (@removesOwn_away V (aoa * nat) chk tv lt eqb T (view_cb V W chk (length A)) (vals a) (a, 0) (length (flat idv A)) (length r) _ _ (sub_incr Ln Ik) (k_reads Ln)) as Q.
    rewrite (sub_length Ln) in Q. apply Q. unfold away. rewrite flat_length. destruct (Nat.lt_ge_cases k (length A)) as [K|K].
    + left. exact (before N Ln K).
    + right. pose proof (@after V A r g B k ltac:(lia)). lia.
Qed.
End Call.
End Sets.
