(** The functions of CRSOwn.v: the entries named are read where they were, if rows and entries are not moved meanwhile. *)
From Coq Require Import List Arith ZArith Lia Bool Sorting.Sorted.
From Verif Require Import Base BaseProofs Mem MemProofs ArrayManipProofs BufferManip BufferManipProofs
  Sorted SortedSpec SortedProofs SortedProofs2 SortedProofs3 SortedArraySpec AoA AoASpec AoALayout AoAProofs AoAProofs2 AoAProofs4
  AoS AoSSpec SetsProofs SetsProofs2 Sparsity SparsitySpec SparsityProofs CRS CRSSpec CRSProofs CRSProofs2 OwnRange OwnRangeProofs SortedOwn SortedOwnProofs CRSOwn.
From Verif Require ArrayManip SortedOwnProofs2.
Import ListNotations.
Set Implicit Arguments.
Unset Strict Implicit.

Section Own.
Variable W : Type.
Variable chk tw : bool.
Notation kind := BMalloc.
Notation aoa := (aoa Z W).
Notation X := (aoa * nat)%type.
Notation matrix := (pattern W).
Notation P := (Z * W)%type.
Notation fv := (@fst Z W).
Notation fw := (@snd Z W).
Notation row := (list P * nat)%type.
Notation rows_t := (list row).
Notation aok := (@aok P Z W fv fw true tw true).
Notation iok := (@iok P Z W).
Notation rx := (@rx P Z W fv fw tw true).
Notation rowset := (@rowset P Z fv Z.ltb).
Notation rep := (@rep P Z W fv fw true tw true Z.ltb).
Notation pincr l := (StronglySorted (fun x y => (fst x <? fst y)%Z = true) l).
Notation pins := (pinsert Z.ltb Z.eqb fv).
Notation LWs := (map (@LV W)).
Notation ent := (@ent P W fw).
Notation absent := (absent Z.eqb fv).
Notation present := (present Z.eqb fv).
Implicit Types a : aoa.
Implicit Types A B L : rows_t.
Implicit Types p : matrix.

(** ** Reading *)
(** The entry [e] is at slot [q], outside of the cells [lo, hi). *)
Definition safe (x : X) (q : nat) (w : W) (lo hi : nat) : Prop := rd (ents (fst x)) q = Ok w /\ (q < lo \/ hi <= q).

Lemma evOwn_insert x nnz q pos w : safe x q w (snd x + pos) (snd x + nnz + 1) ->
  crs_evOwn chk tw nnz q (EInsert pos) x = crs_ev chk tw nnz [w] (EInsert pos) x.
Proof.
  destruct x as [a e]. intros [R D]. cbn [fst snd] in *. unfold crs_evOwn, crs_ev. cbn [entry_eventOwn entry_event aget nth_error bind].
  rewrite (emplaceOwn_emplace chk tw (v := w) R); [reflexivity|]. unfold still. lia.
Qed.
Lemma evOwn_set x nnz q ws k w : nth_error ws k = Some w -> rd (ents (fst x)) (q + k) = Ok (fw w) ->
  crs_evOwn chk tw nnz q (ESet k k) x = crs_ev chk tw nnz (map fw ws) (ESet k k) x.
Proof.
  destruct x as [a e]. cbn [fst]. intros N R. unfold crs_evOwn, crs_ev. cbn [entry_eventOwn entry_event]. rewrite R, (aget_fw N). reflexivity.
Qed.
Lemma evOwn_insertN x nnz q ws k w nLeft pos prev : nth_error ws k = Some w -> safe x (q + k) (fw w) (snd x + pos) (snd x + prev + nLeft) ->
  crs_evOwn chk tw nnz q (EInsertN nLeft k pos prev) x = crs_ev chk tw nnz (map fw ws) (EInsertN nLeft k pos prev) x.
Proof.
  destruct x as [a e]. intros N [R D]. cbn [fst snd] in *. unfold crs_evOwn, crs_ev. cbn [entry_eventOwn entry_event]. rewrite (aget_fw N).
  destruct (ArrayManip.shiftUp chk tw (ents a) e prev pos nLeft) as [b1| |] eqn:E; cbn [bind]; auto.
  rewrite (@rd_nth_eq W (ents a) b1 (q + k)), R; [reflexivity|]. eapply shiftUp_nth; [exact E|]. lia.
Qed.

(** While row [length A] is being changed: entries of a row before it, or of a row behind it if its capacity is as before *)
Lemma flat_at (g : P -> W) A k rk gk j (e : P) : nth_error A k = Some (rk, gk) -> nth_error rk j = Some e ->
  nth_error (flat g A) (total (firstn k A) + j) = Some (LV (g e)).
Proof.
  revert k; induction A as [|[r c] A IH]; intros [|k] N J; try discriminate; simpl in N.
  - injection N as -> ->. cbn [firstn total plus]. unfold flat. cbn [flat_map]. unfold cells at 1. cbn [fst snd].
    assert (j < length rk) by (apply nth_error_Some; congruence).
    rewrite <- app_assoc, nth_error_app1 by (rewrite !map_length; lia). rewrite !nth_error_map, J. reflexivity.
  - specialize (IH k N J). cbn [firstn]. cbn [total]. unfold flat. cbn [flat_map]. fold (flat g A). unfold cells at 1, wid. cbn [fst snd].
    rewrite nth_error_app2 by (rewrite app_length, !map_length, repeat_length; lia).
    rewrite <- IH. f_equal. rewrite app_length, !map_length, repeat_length. lia.
Qed.
Definition stays A (es : list P) g k C : Prop := k < length A \/ (length A < k /\ C = length es + g).
Lemma own_read Q A es C B pc s lo x g k rk gk j e : rx Q A es C B pc s lo x -> nth_error (A ++ (es, g) :: B) k = Some (rk, gk) ->
  nth_error rk j = Some e -> stays A es g k C ->
  safe x (total (firstn k (A ++ (es, g) :: B)) + j) (fw e) (snd x) (snd x + C) /\ snd x = total A.
Proof.
  intros (q & -> & _ & LC & _ & _ & D) N J S. destruct (D eq_refl) as (Ee & le & q' & F & M). rewrite flat_length in Ee.
  assert (Fl : length lo = length le) by (clear -F; induction F; cbn; congruence).
  assert (Lj : j < length rk) by (apply nth_error_Some; congruence).
  split; [|exact Ee]. unfold safe. rewrite Ee. destruct S as [S|[S ->]].
  - rewrite nth_error_app1 in N by exact S. rewrite firstn_app, (proj2 (Nat.sub_0_le k (length A))) by lia. cbn [firstn]. rewrite app_nil_r.
    pose proof (@flat_at fw A k rk gk j e N J) as G.
    assert (Lt : total (firstn k A) + j < total A) by (rewrite <- (flat_length fw A); apply nth_error_Some; rewrite G; discriminate).
    split; [|left; exact Lt]. eapply MemProofs.rd_nth; [exact M|]. rewrite nth_error_app1 by (rewrite flat_length; exact Lt). exact G.
  - rewrite nth_error_app2 in N by lia. destruct (k - length A) as [|k'] eqn:Ek; [lia|]. cbn [nth_error] in N.
    rewrite firstn_app, firstn_all2, Ek by lia. cbn [firstn].
    assert (Et : total (A ++ (es, g) :: firstn k' B) = total A + (length es + g) + total (firstn k' B)).
    { rewrite total_app. cbn [total]. unfold wid. cbn [fst snd]. lia. }
    rewrite Et. pose proof (@flat_at fw B k' rk gk j e N J) as G.
    assert (Lt : total (firstn k' B) + j < total B) by (rewrite <- (flat_length fw B); apply nth_error_Some; rewrite G; discriminate).
    split; [|right; lia]. eapply MemProofs.rd_nth; [exact M|].
    rewrite nth_error_app2 by (rewrite flat_length; lia). rewrite nth_error_app2 by (rewrite flat_length; lia).
    rewrite nth_error_app2 by (rewrite flat_length, repeat_length; lia).
    rewrite nth_error_app1 by (rewrite !flat_length, repeat_length; lia). rewrite <- G. f_equal. rewrite flat_length, repeat_length. lia.
Qed.
(** Entries of the row itself, in front of the first cell moved *)
Lemma own_front A f1 g1 C B pc s x j e : rx (eq LN) A (f1 ++ g1) C B pc s (map Some (f1 ++ g1) ++ [None]) x -> nth_error f1 j = Some e ->
  safe x (total A + j) (fw e) (snd x + length f1) (snd x + length (f1 ++ g1) + 1).
Proof.
  intros (q & -> & _ & LC & _ & _ & D) J. destruct (D eq_refl) as (Ee & le & q' & F & M). rewrite flat_length in Ee.
  assert (Lj : j < length f1) by (apply nth_error_Some; congruence). unfold safe. rewrite Ee. split; [|left; lia].
  apply Forall2_app_inv_l in F. destruct F as (l1 & l2 & F1 & _ & ->). apply f2_some in F1. subst l1.
  eapply MemProofs.rd_nth; [exact M|]. rewrite nth_error_app2 by (rewrite flat_length; lia).
  rewrite flat_length, (Nat.add_comm (total A)), Nat.add_sub. rewrite <- app_assoc, nth_error_app1 by (rewrite !map_length, app_length; lia).
  rewrite !nth_error_map, nth_error_app1, J by lia. reflexivity.
Qed.
(** and behind it, where the entry before it is found then *)
Lemma own_back A f1 g1 C B pc s x j e : rx (eq LN) A (f1 ++ g1) C B pc s (map Some (f1 ++ g1) ++ [None]) x -> nth_error g1 j = Some e ->
  crs_evOwn chk tw (length (f1 ++ g1)) (total A + (length f1 + S j)) (EInsert (length f1)) x =
  crs_ev chk tw (length (f1 ++ g1)) [fw e] (EInsert (length f1)) x.
Proof.
  intros (q & -> & _ & LC & _ & _ & D) J. destruct (D eq_refl) as (Ee & le & q' & F & M). rewrite flat_length in Ee.
  assert (Lj : j < length g1) by (apply nth_error_Some; congruence).
  apply Forall2_app_inv_l in F. destruct F as (l1 & l2 & F1 & F2 & ->). apply f2_some in F1. subst l1.
  apply (none_inv (n := 1)) in F2. subst l2. destruct x as [a e0]. cbn [fst snd] in *. subst e0.
  unfold crs_evOwn, crs_ev. cbn [entry_eventOwn entry_event aget nth_error bind]. unfold emplaceOwn, ArrayManip.emplace.
  destruct (ArrayManip.check_insert_bounds chk (length (f1 ++ g1)) (length f1)); cbn [bind]; auto.
  clear D LC. set (sw := repeat LN (C - length (map Some (f1 ++ g1) ++ [None])) ++ flat fw B ++ repeat LN q') in *.
  assert (M' : mem tw (ents a) (flat fw A ++ LWs (map fw f1) ++ LWs (map fw g1) ++ repeat LN 1 ++ sw)).
  { eapply mem_cast; [exact M|]. rewrite !map_app. lapp. reflexivity. }
  destruct (@shiftUp_ok W chk tw (ents a) (flat fw A) (map fw f1) (map fw g1) 1 sw (total A) (length (f1 ++ g1)) (length f1) M') as (b1 & E1 & M1); [rewrite flat_length; reflexivity|len|len|].
  rewrite E1. cbn [bind]. erewrite (@MemProofs.rd_nth W tw b1); [reflexivity|exact M1|].
  rewrite nth_error_app2 by (rewrite flat_length; lia). rewrite flat_length, (Nat.add_comm (total A)), Nat.add_sub.
  rewrite nth_error_app2 by (rewrite !map_length; lia). rewrite !map_length.
  replace (length f1 + S j - length f1) with (S j) by lia. cbn [repeat app nth_error].
  rewrite nth_error_app1 by (rewrite !map_length; lia). rewrite !nth_error_map, J. reflexivity.
Qed.
End Own.
