(** Properties of SortedArray and ArrayOfSets when the arguments are elements of the container itself (C73): the theorems and their
    non-vacuity examples. *)
From Coq Require Import List Arith ZArith Lia Bool Sorting.Sorted.
From Verif Require Import Base BaseProofs Mem SortedSpec SortedArray SortedArraySpec AoA AoASpec AoS AoSSpec PropAoS PropOwn SortedOwn.
From Verif Require BufferManipProofs SortedProofs SortedProofs2 SortedArrayProofs CopyMoveProofs AoALayout AoAProofs AoAProofs2 SetsProofs SetsProofs2 AoSProofs
  OwnRangeProofs2 OwnRangeProofs3 SortedOwnProofs SortedOwnProofs2.
Import ListNotations.
Set Implicit Arguments.
Unset Strict Implicit.

(** * SortedArray *)
(** What the user reads from a SortedArray which is the set [S]. *)
Definition sorted_shows {V} (chk : bool) (lt : V -> V -> bool) (a : sarray V) (S : V -> Prop) : Prop :=
  exists l, is_set lt l S /\ s_size a = length l /\ forall i v, nth_error l i = Some v -> s_at chk a (Z.of_nat i) = Ok v.

Section HelpS.
Variable V : Type.
Variable chk triv : bool.
Variable lt eqb : V -> V -> bool.
Variable dflt : V.
Hypothesis T : total_order lt eqb.
Notation sa_ok := (@SortedArrayProofs.sa_ok V triv lt).
Lemma is_set_unique l l' (S : V -> Prop) : is_set lt l S -> is_set lt l' S -> l = l'.
Proof.
  intros [I H] [I' H']. apply (CopyMoveProofs.incr_unique T); [apply SortedProofs.increasing_strong; exact I|apply SortedProofs.increasing_strong; exact I'|].
  intros x. rewrite H, H'. reflexivity.
Qed.
Lemma run_ok h a rs l : Forall (allowed lt) h -> srun chk triv BMalloc lt eqb dflt h (new_s V BMalloc) = Ok (a, rs) -> is_set lt l (set_of h) -> sa_ok a l.
Proof.
  intros F E Hl. destruct (@SortedArrayProofs.srun_ok V chk triv lt eqb dflt T h (new_s V BMalloc) [] (SortedArrayProofs.new_s_ok triv lt) F)
    as ([a0 rs0] & E0 & l0 & H & Hl0 & _). cbn [fst snd] in *. rewrite E in E0. injection E0 as <- <-.
  assert (Q : is_set lt l0 (set_of h)). { split; [apply SortedProofs.increasing_strong; apply H|exact Hl0]. }
  rewrite (is_set_unique Hl Q). exact H.
Qed.
Lemma sa_shows a l (S : V -> Prop) : sa_ok a l -> (forall x, In x l <-> S x) -> sorted_shows chk lt a S.
Proof.
  intros (H & Hs & I) E. exists l. split; [split; [apply SortedProofs.increasing_strong; exact I|exact E]|]. split; [exact Hs|].
  intros i v N. unfold s_at. rewrite Hs. assert (i < length l) by (apply nth_error_Some; congruence).
  rewrite BaseProofs.check_if_ok by (destruct (Z.ltb_spec (Z.of_nat i) 0), (Z.leb_spec (Z.of_nat (length l)) (Z.of_nat i)); auto; lia).
  unfold to_ix. destruct (Z.ltb_spec (Z.of_nat i) 0); [lia|]. cbn [bind]. rewrite Nat2Z.id. eapply BufferManipProofs.holds_rd; eauto.
Qed.
Lemma incr_nodup (l : list V) : StronglySorted (fun x y => lt x y = true) l -> NoDup l.
Proof. intros I. eapply (@SetsProofs2.pincr_nodup V V (fun v => v) lt eqb T); exact I. Qed.
Lemma same_length (l l' : list V) : NoDup l -> NoDup l' -> (forall x, In x l <-> In x l') -> length l = length l'.
Proof. intros N N' E. apply Nat.le_antisymm; apply NoDup_incl_length; auto; intros x; apply E. Qed.
Lemma nodup_tail (A B : list V) : NoDup (A ++ B) -> NoDup B.
Proof. induction A as [|x A IH]; auto. intros N. inversion N; auto. Qed.
(** The elements of an increasing list but those of a range *)
Lemma without_range l i n : i + n <= length l -> StronglySorted (fun x y => lt x y = true) l ->
  let l' := firstn i l ++ skipn (i + n) l in NoDup l' /\ length l' + n = length l /\ forall x, In x l' <-> In x l /\ ~ In x (range l i n).
Proof.
  intros H I. pose proof (incr_nodup I) as N. pose proof (SortedOwnProofs2.sub_parts H) as E. cbn zeta. unfold range.
  rewrite E in N. split; [|split].
  - clear - N. revert N. generalize (firstn i l) as A, (firstn n (skipn i l)) as B, (skipn (i + n) l) as C. intros A B C N.
    induction B as [|b B IH]; [exact N|]. apply IH. cbn [app] in N. apply NoDup_remove_1 in N. exact N.
  - rewrite app_length, firstn_length, skipn_length. lia.
  - intros x. rewrite E at 3. rewrite !in_app_iff. split; [|tauto]. intros Hx. split; [tauto|]. intros Hr. clear E.
    revert N Hx Hr. generalize (firstn i l) as A, (firstn n (skipn i l)) as B, (skipn (i + n) l) as C. intros A B C N Hx Hr.
    destruct Hx as [Hx|Hx].
    + apply in_split in Hx. destruct Hx as (A1 & A2 & ->). rewrite <- app_assoc in N. cbn [app] in N. apply NoDup_remove_2 in N. apply N. rewrite !in_app_iff. auto.
    + apply nodup_tail in N. apply in_split in Hr. destruct Hr as (B1 & B2 & ->). rewrite <- app_assoc in N. cbn [app] in N. apply NoDup_remove_2 in N.
      apply N. rewrite !in_app_iff. auto.
Qed.
End HelpS.

(** s.insert( s[ i ] ) and s.insert( s.begin() + i, s.begin() + i + n ) insert nothing. *)
Theorem C73_sorted_insert : forall V (lt eqb : V -> V -> bool) (dflt : V) chk triv h a rs l, total_order lt eqb -> Forall (allowed lt) h ->
  srun chk triv BMalloc lt eqb dflt h (new_s V BMalloc) = Ok (a, rs) -> is_set lt l (set_of h) ->
  (forall i, i < length l -> exists a', s_insertOwn chk triv BMalloc lt eqb a i = Ok (a', false) /\ sorted_shows chk lt a' (set_of h)) /\
  (forall i n, i + n <= length l -> exists a', s_insertsOwn chk triv BMalloc lt eqb a i n = Ok (a', 0) /\ sorted_shows chk lt a' (set_of h)).
Proof.
  intros V lt eqb dflt chk triv h a rs l T F E Hl. pose proof (run_ok T F E Hl) as H. destruct Hl as [_ Hl]. pose proof H as (_ & _ & I).
  assert (Q : forall l' (P : V -> Prop), StronglySorted (fun x y => lt x y = true) l' -> (forall x, P x -> In x l) -> (forall x, In x l' <-> P x \/ In x l) -> length l' = length l).
  { intros l' P I' HP H'. apply same_length; try (eapply incr_nodup; eauto). intros x. rewrite H'. split; [|tauto]. intros [Hx|Hx]; auto. }
  split.
  - intros i Hi. destruct (nth_error l i) as [v|] eqn:N; [|apply nth_error_None in N; lia]. rewrite (SortedOwnProofs2.s_insertOwn_ok chk T H N).
    destruct (@SortedArrayProofs.sstep_ok V chk triv lt eqb dflt T (SInsert v) a l H Logic.I) as ([a' r] & E' & l' & H' & S' & C'). cbn [sstep fst snd set_after counts] in *.
    destruct (s_insert chk triv BMalloc lt eqb a v) as [[a1 r1]| |]; try discriminate. cbn [bind] in E'. injection E' as <- <-.
    assert (Iv : In v l) by (eapply nth_error_In; eauto). pose proof H' as (_ & _ & I').
    specialize (Q l' (fun x => x = v) I'). rewrite Q in C' by (try exact S'; intros x ->; exact Iv).
    exists a1. split; [destruct r1; [cbn in C'; lia|reflexivity]|]. eapply sa_shows; [exact H'|]. intros x. rewrite S', <- Hl. split; [|tauto]. intros [->|Hx]; auto.
  - intros i n Hi. rewrite (SortedOwnProofs2.s_insertsOwn_ok chk T H Hi).
    assert (Al : allowed lt (SInsertRange (range l i n))) by (cbn; apply SortedProofs.increasing_strong, SortedOwnProofs2.sub_incr; auto).
    destruct (@SortedArrayProofs.sstep_ok V chk triv lt eqb dflt T (SInsertRange (range l i n)) a l H Al) as ([a' r] & E' & l' & H' & S' & C'). cbn [sstep fst snd set_after counts] in *.
    unfold range in E'. rewrite E'. assert (Iv : forall x, In x (range l i n) -> In x l) by (intros x; apply SortedOwnProofs2.sub_in). pose proof H' as (_ & _ & I').
    specialize (Q l' (fun x => In x (range l i n)) I' Iv S'). rewrite Q in C'.
    exists a'. split; [do 2 f_equal; lia|]. eapply sa_shows; [exact H'|]. intros x. rewrite S', <- Hl. split; [|tauto]. intros [Hx|Hx]; auto.
Qed.
Print Assumptions C73_sorted_insert.

(** s.remove( s[ i ] ) and s.remove( s.begin() + i, s.begin() + i + n ) remove exactly the elements named, although removal moves elements
    over the ones it is given. *)
Theorem C73_sorted_remove : forall V (lt eqb : V -> V -> bool) (dflt : V) chk triv h a rs l, total_order lt eqb -> Forall (allowed lt) h ->
  srun chk triv BMalloc lt eqb dflt h (new_s V BMalloc) = Ok (a, rs) -> is_set lt l (set_of h) ->
  (forall i v, nth_error l i = Some v -> exists a', s_removeOwn chk triv BMalloc lt eqb a i = Ok (a', true) /\
     sorted_shows chk lt a' (fun x => set_of h x /\ x <> v)) /\
  (forall i n, i + n <= length l -> exists a', s_removesOwn chk triv BMalloc lt eqb a i n = Ok (a', n) /\
     sorted_shows chk lt a' (fun x => set_of h x /\ ~ In x (range l i n))).
Proof.
  intros V lt eqb dflt chk triv h a rs l T F E Hl. pose proof (run_ok T F E Hl) as H. destruct Hl as [_ Hl]. pose proof H as (_ & _ & I).
  split.
  - intros i v N. rewrite (SortedOwnProofs2.s_removeOwn_ok chk eqb H N). assert (Li : i + 1 <= length l) by (assert (i < length l) by (apply nth_error_Some; congruence); lia).
    destruct (without_range T Li I) as (N1 & L1 & R1).
    assert (Rv : range l i 1 = [v]).
    { unfold range. rewrite <- (firstn_skipn i l), nth_error_app2 in N by (rewrite firstn_length; lia).
      rewrite firstn_length, Nat.min_l, Nat.sub_diag in N by lia. destruct (skipn i l); [discriminate|]. injection N as ->. reflexivity. }
    destruct (@SortedArrayProofs.sstep_ok V chk triv lt eqb dflt T (SRemove v) a l H Logic.I) as ([a' r] & E' & l' & H' & S' & C'). cbn [sstep fst snd set_after counts] in *.
    destruct (s_remove chk triv BMalloc lt eqb a v) as [[a1 r1]| |]; try discriminate. cbn [bind] in E'. injection E' as <- <-.
    pose proof H' as (_ & _ & I'). exists a1. split.
    + rewrite (@same_length V l' _ (incr_nodup T I') N1) in C' by (intros x; rewrite S', R1, Rv; simpl; intuition). destruct r1; [reflexivity|cbn in C'; lia].
    + eapply sa_shows; [exact H'|]. intros x. rewrite S', Hl. reflexivity.
  - intros i n Hi. rewrite (SortedOwnProofs2.s_removesOwn_ok chk T H Hi). destruct (without_range T Hi I) as (N1 & L1 & R1).
    assert (Al : allowed lt (SRemoveRange (range l i n))) by (cbn; apply SortedProofs.increasing_strong, SortedOwnProofs2.sub_incr; auto).
    destruct (@SortedArrayProofs.sstep_ok V chk triv lt eqb dflt T (SRemoveRange (range l i n)) a l H Al) as ([a' r] & E' & l' & H' & S' & C'). cbn [sstep fst snd set_after counts] in *.
    unfold range in E'. rewrite E'. pose proof H' as (_ & _ & I'). exists a'. split.
    + rewrite (@same_length V l' _ (incr_nodup T I') N1) in C' by (intros x; rewrite S', R1; reflexivity). do 2 f_equal. lia.
    + eapply sa_shows; [exact H'|]. intros x. rewrite S', Hl. reflexivity.
Qed.
Print Assumptions C73_sorted_remove.

(** * ArrayOfSets *)
(** [m] more elements fit set [i] ([has_room]), or make it grow without a new block for m_values ([keeps_block]): the new capacity is
    2 * newSize, and the unused values follow the last set. *)
Definition has_room {V} (chk : bool) (a : aoa V unit) (i m : nat) : Prop :=
  exists s c, sizeOfArray chk a i = Ok s /\ capacityOfArray chk a i = Ok c /\ s + m <= c.
Definition keeps_block {V} (chk : bool) (a : aoa V unit) (i m : nat) : Prop :=
  exists s c o, sizeOfArray chk a i = Ok s /\ capacityOfArray chk a i = Ok c /\ offset a (numArrays a) = Ok o /\ o + (2 * (s + m) - c) <= valueCapacity a.
(** The values of set [k] may be given to an insertion of [m] elements into set [i]. *)
Definition may_insert {V} (chk : bool) (a : aoa V unit) (i k m : nat) : Prop :=
  k = i \/ has_room chk a i m \/ (k < i /\ keeps_block chk a i m).
(** The call does the same as the call with copies of the values, after which the container shows [M'] and which returns [r]; for T which
    is not trivially copyable it may fail because slots without a value are moved, C26. *)
Definition as_with_copies {V} (chk tv : bool) (lt eqb : V -> V -> bool) {R} (own copies : outcome (aoa V unit * R)) (M' : list (V -> Prop)) (r : R) : Prop :=
  own = copies /\ ((exists a', own = Ok (a', r) /\ shows chk lt eqb a' M') \/ (tv = false /\ own = Fault FMove)).

Section HelpT.
Variable V : Type.
Variable chk tv : bool.
Variable lt eqb : V -> V -> bool.
Variable dflt : V.
Hypothesis T : total_order lt eqb.
Notation fu := (fun _ : V => tt).
Notation rep := (@SetsProofs2.rep V V unit (fun v : V => v) fu tv true false lt).
Notation aok := (@AoAProofs.aok V V unit (fun v : V => v) fu tv true false).
Notation rows := (list (list V * nat)).
Notation incr l := (StronglySorted (fun x y => lt x y = true) l).
Notation absent := (SortedProofs2.absent eqb (fun v : V => v)).

Lemma driven_sets n0 cap0 h M a : Forall (tallowed lt) h -> set_run lt h (repeat none n0) = Some M -> tdriven chk tv lt eqb dflt n0 cap0 h = Ok a -> rep a M.
Proof.
  intros F H E. pose proof (tdriven_rep T chk tv dflt n0 cap0 F) as D. rewrite H in D.
  destruct D as [(a' & E' & R)|[Tf E']]; rewrite E in E'; [|discriminate]. injection E' as <-. exact R.
Qed.
(** Sets [i] and [k] in the layout *)
Lemma two_rows a M i k Si Sk lk : rep a M -> nth_error M i = Some Si -> nth_error M k = Some Sk -> is_set lt lk Sk ->
  exists (A : rows) r g B gk, aok a (A ++ (r, g) :: B) /\ length A = i /\ incr r /\ (forall x, In x r <-> Si x) /\
    nth_error (A ++ (r, g) :: B) k = Some (lk, gk) /\ incr lk.
Proof.
  intros (L & H & F) Ni Nk Hk. destruct (SetsProofs2.f2_at F Ni) as (A & r & g & B & E & Li & [I Ri] & _). cbn [fst] in I, Ri.
  destruct (SetsProofs2.f2_at F Nk) as (A' & r' & g' & B' & E' & Lk & [I' Rk] & _). cbn [fst] in I', Rk. subst L.
  assert (r' = lk) by (eapply is_set_unique; [exact T| |exact Hk]; split; [apply SortedProofs.increasing_strong; exact I'|exact Rk]). subst r'.
  exists A, r, g, B, g'. split; [exact H|]. split; [exact Li|]. split; [exact I|]. split; [exact Ri|]. split; [|exact I'].
  rewrite E', <- Lk. apply SetsProofs.row_nth.
Qed.
Lemma absent_card (r vs : list V) (Si : V -> Prop) m : incr vs -> (forall x, In x r <-> Si x) -> cardinal (fun x => In x vs /\ ~ Si x) m -> absent r vs = m.
Proof.
  intros I Hr C. unfold SortedProofs2.absent. eapply SetsProofs2.card_len; [exact C| |].
  - apply NoDup_filter. eapply incr_nodup; eauto.
  - intros x. rewrite filter_In, <- Hr, negb_true_iff. unfold SortedProofs2.present.
    assert (Q : existsb (fun e => eqb e x) r = true <-> In x r).
    { rewrite existsb_exists. split; [intros (y & Hy & Ey); apply (SortedProofs2.eqb_true T) in Ey; subst; auto|]. intros Hx. exists x. split; auto. apply (SortedProofs2.eqb_refl T). }
    split; intros [Hv Hx]; split; auto.
    + rewrite <- Q. congruence.
    + destruct (existsb (fun e => eqb e x) r); auto. destruct Hx. apply Q. reflexivity.
Qed.
Lemma room_row a (A : rows) r g B m : aok a (A ++ (r, g) :: B) -> has_room chk a (length A) m <-> m <= g.
Proof.
  intros [I _]. unfold has_room. rewrite (SetsProofs.row_size chk I), (SetsProofs.row_capacity chk I). split.
  - intros (s & c & [= <-] & [= <-] & H). lia.
  - intros H. exists (length r), (length r + g). repeat split. lia.
Qed.
Lemma block_row a (A : rows) r g B m : aok a (A ++ (r, g) :: B) ->
  (has_room chk a (length A) m \/ keeps_block chk a (length A) m) <-> OwnRangeProofs2.moves a A r g B m = false.
Proof.
  intros H. rewrite (room_row m H). destruct H as [I _]. pose proof I as (Na & _). unfold keeps_block, OwnRangeProofs2.moves, valueCapacity, BufferManip.capacity.
  rewrite (SetsProofs.row_size chk I), (SetsProofs.row_capacity chk I), Na, (AoAProofs.offset_at I), firstn_all by auto.
  destruct (Nat.ltb_spec (length r + g) (length r + m)); cbn [andb]; [|intuition lia].
  rewrite Nat.ltb_ge. split.
  - intros [Q|(s & c & o & [= <-] & [= <-] & [= <-] & Q)]; lia.
  - intros Q. right. exists (length r), (length r + g), (AoALayout.total (A ++ (r, g) :: B)). repeat split. exact Q.
Qed.
Lemma place_row a (A : rows) r g B k rk gk vs : aok a (A ++ (r, g) :: B) -> nth_error (A ++ (r, g) :: B) k = Some (rk, gk) -> (forall x, In x vs -> In x rk) ->
  may_insert chk a (length A) k (absent r vs) ->
  OwnRangeProofs2.moves a A r g B (absent r vs) = false /\ SortedOwnProofs2.place A g k (absent r vs).
Proof.
  intros H N Sub P.
  assert (Z : k = length A -> absent r vs = 0).
  { intros ->. rewrite SetsProofs.row_nth in N. injection N as <- <-. apply (SortedOwnProofs2.absent_self T). exact Sub. }
  unfold SortedOwnProofs2.place. destruct P as [P|[P|[P1 P2]]].
  - rewrite (Z P). split; [|auto]. apply (block_row 0 H). left. apply (room_row 0 H). lia.
  - split; [apply (block_row _ H); auto|]. right. right. apply (room_row _ H). exact P.
  - split; [apply (block_row _ H); auto|auto].
Qed.
Lemma does_step a M c M' : rep a M -> tallowed lt c -> set_step lt c M = Some M' ->
  (exists a' r, tstep chk tv true false BMalloc lt eqb dflt c a = Ok (a', r) /\ treturns c M M' r /\ shows chk lt eqb a' M') \/
  (tv = false /\ tstep chk tv true false BMalloc lt eqb dflt c a = Fault FMove).
Proof.
  intros R Al St. pose proof (@AoSProofs.tstep_ok V unit fu chk tv true lt eqb T dflt c a M R Al) as Q. rewrite St in Q.
  destruct Q as [([a1 r1] & E1 & R1 & Rt)|[Tf E1]]; [|right; auto]. left. exists a1, r1. split; [exact E1|]. split; [exact Rt|exact (rep_shows T chk R1)].
Qed.
Lemma set_card a M i Si : rep a M -> nth_error M i = Some Si -> exists r, incr r /\ (forall x, In x r <-> Si x).
Proof. intros (L & _ & F) N. destruct (SetsProofs2.f2_at F N) as (A & r & g & B & _ & _ & [I Ri] & _). exists r. auto. Qed.
Lemma put_nth (X : Type) (M : list X) i x y : nth_error M i = Some y -> nth_error (put_at M i x) i = Some x.
Proof.
  intros N. unfold put_at. assert (i < length M) by (apply nth_error_Some; congruence). rewrite nth_error_app2 by (rewrite firstn_length; lia).
  rewrite firstn_length, Nat.min_l, Nat.sub_diag by lia. reflexivity.
Qed.
Lemma eq_dec (x y : V) : {x = y} + {x <> y}.
Proof. destruct (eqb x y) eqn:E; [left; apply (SortedProofs2.eqb_true T); exact E|right; intros ->; rewrite (SortedProofs2.eqb_refl T) in E; discriminate]. Qed.
(** How many elements an insertion adds *)
Lemma card_sum (r vs : list V) Si m : incr r -> incr vs -> (forall x, In x r <-> Si x) -> cardinal (fun x => In x vs /\ ~ Si x) m ->
  cardinal Si (length r) /\ cardinal (fun x => In x vs \/ Si x) (length r + m).
Proof.
  intros I Iv Hr (l & N & Hl & <-). split.
  - exists r. split; [eapply incr_nodup; eauto|]. split; auto.
  - exists (r ++ l). split; [|split; [|apply app_length]].
    + assert (Q : forall x, In x r -> ~ In x l) by (intros x Hx Hx'; apply Hl in Hx'; destruct Hx' as [_ Hx']; apply Hx', Hr; exact Hx).
      pose proof (incr_nodup T I) as Nr. clear -N Nr Q. induction Nr as [|x r Nx Nr IH]; [exact N|]. cbn. constructor.
      * rewrite in_app_iff. intros [Hx|Hx]; [auto|exact (Q x (or_introl eq_refl) Hx)].
      * apply IH. intros y Hy. apply Q. simpl. auto.
    + intros x. rewrite in_app_iff, Hl, Hr. split; [tauto|]. intros [Hx|Hx]; auto.
      destruct (in_dec eq_dec x r) as [Hy|Hy].
      * left. apply Hr. exact Hy.
      * right. split; auto. rewrite <- Hr. exact Hy.
Qed.
Lemma card_ext (S S' : V -> Prop) m : (forall x, S x <-> S' x) -> cardinal S m -> cardinal S' m.
Proof. intros E (l & N & Hl & Ln). exists l. split; auto. split; auto. intros x. rewrite Hl. apply E. Qed.
(** and how many a removal takes away *)
Lemma card_diff (r vs : list V) (Si : V -> Prop) m : incr r -> (forall x, In x r <-> Si x) -> cardinal (fun x => In x vs /\ Si x) m ->
  exists d, cardinal (AoSProofs.diff_set Si vs) d /\ cardinal Si (d + m).
Proof.
  intros I Hr C. pose proof (incr_nodup T I) as Nr. set (f := fun x => if in_dec eq_dec x vs then true else false).
  assert (Ff : forall x, f x = true <-> In x vs) by (intros x; unfold f; destruct (in_dec eq_dec x vs); split; auto; discriminate).
  assert (Lm : length (filter f r) = m).
  { eapply SetsProofs2.card_len; [exact C|apply NoDup_filter; exact Nr|]. intros x. rewrite filter_In, Ff, Hr. tauto. }
  exists (length (filter (fun x => negb (f x)) r)). split.
  - exists (filter (fun x => negb (f x)) r). split; [apply NoDup_filter; exact Nr|]. split; auto.
    intros x. rewrite filter_In, negb_true_iff, Hr. unfold AoSProofs.diff_set. rewrite <- Ff. destruct (f x); intuition congruence.
  - exists r. split; auto. split; auto. rewrite <- Lm. clear. induction r as [|x r IH]; [reflexivity|]. cbn [filter]. destruct (f x); cbn [negb length]; lia.
Qed.
End HelpT.

(** insertIntoSet( i, a( k, l ) ) and insertIntoSet( i, a[ k ].begin() + l, a[ k ].begin() + l + n ) *)
Theorem C73_insert : forall V (lt eqb : V -> V -> bool) (dflt : V) chk tv n0 cap0 h M a i k Si Sk lk l v m, total_order lt eqb ->
  Forall (tallowed lt) h -> set_run lt h (repeat none n0) = Some M -> tdriven chk tv lt eqb dflt n0 cap0 h = Ok a ->
  nth_error M i = Some Si -> nth_error M k = Some Sk -> is_set lt lk Sk -> nth_error lk l = Some v ->
  cardinal (fun x => x = v /\ ~ Si x) m -> may_insert chk a i k m ->
  exists b, m = AoS.flag b /\
  as_with_copies chk tv lt eqb (insertIntoSetOwn chk tv true false BMalloc lt eqb a i k l) (insertIntoSet chk tv true false BMalloc lt eqb a i v)
    (put_at M i (fun x => x = v \/ Si x)) b.
Proof.
  intros V lt eqb dflt chk tv n0 cap0 h M a i k Si Sk lk l v m T F H E Ni Nk Hk Hv C P.
  pose proof (driven_sets T F H E) as R. destruct (two_rows T R Ni Nk Hk) as (A & r & g & B & gk & Ha & Li & I & Hr & N & Ik). subst i.
  assert (C' : cardinal (fun x => In x [v] /\ ~ Si x) m).
  { eapply card_ext; [|exact C]. intros x. simpl. intuition. }
  assert (Iv : StronglySorted (fun x y => lt x y = true) [v]) by (repeat constructor).
  pose proof (absent_card T Iv Hr C') as Am. rewrite <- Am in P.
  destruct (@place_row V chk tv lt eqb T a A r g B k lk gk [v] Ha N) as [Mv Pl]; [intros x [<-|[]]; eapply nth_error_In; eauto|exact P|].
  rewrite (SortedOwnProofs2.insertOwn_ok chk T Ha I N Hv Mv Pl).
  assert (Bm : m = 0 \/ m = 1).
  { rewrite <- Am. unfold SortedProofs2.absent. cbn [filter]. destruct (negb _); cbn; auto. }
  destruct (@does_step V chk tv lt eqb dflt T a M (TInsert (length A) v) (put_at M (length A) (fun x => x = v \/ Si x)) R Logic.I) as [(a' & r' & E' & Rt & Sh)|[Tf E']].
  - cbn. unfold on_elem. rewrite Ni. reflexivity.
  - cbn [tstep] in E'. destruct (insertIntoSet _ _ _ _ _ _ _ _ _ _) as [[a1 r1]| |] eqn:Ei; try discriminate. cbn [bind] in E'. injection E' as <- <-.
    exists r1. destruct (card_sum T I Iv Hr C') as [C1 C2].
    assert (Q : m = AoS.flag r1).
    { assert (C3 : cardinal (fun x => x = v \/ Si x) (length r + m)).
      { eapply card_ext; [|exact C2]. intros x. simpl. intuition. }
      cbn in Rt. pose proof (Rt _ _ _ _ Ni (put_nth _ Ni) C1 C3). lia. }
    split; [exact Q|]. split; [reflexivity|]. left. eauto.
  - cbn [tstep] in E'. destruct (insertIntoSet _ _ _ _ _ _ _ _ _ _) as [[a1 r1]| |] eqn:Ei; try discriminate. cbn [bind] in E'. injection E' as ->.
    exists (m =? 1). split; [destruct Bm as [-> | ->]; reflexivity|]. split; [reflexivity|]. right. auto.
Qed.
Print Assumptions C73_insert.
Theorem C73_insert_range : forall V (lt eqb : V -> V -> bool) (dflt : V) chk tv n0 cap0 h M a i k Si Sk lk l n m, total_order lt eqb ->
  Forall (tallowed lt) h -> set_run lt h (repeat none n0) = Some M -> tdriven chk tv lt eqb dflt n0 cap0 h = Ok a ->
  nth_error M i = Some Si -> nth_error M k = Some Sk -> is_set lt lk Sk -> l + n <= length lk ->
  cardinal (fun x => In x (range lk l n) /\ ~ Si x) m -> may_insert chk a i k m ->
  as_with_copies chk tv lt eqb (insertsIntoSetOwn chk tv true false BMalloc lt eqb a i k l n) (insertsIntoSet chk tv true false BMalloc lt eqb a i (range lk l n))
    (put_at M i (fun x => In x (range lk l n) \/ Si x)) m.
Proof.
  intros V lt eqb dflt chk tv n0 cap0 h M a i k Si Sk lk l n m T F H E Ni Nk Hk Hv C P.
  pose proof (driven_sets T F H E) as R. destruct (two_rows T R Ni Nk Hk) as (A & r & g & B & gk & Ha & Li & I & Hr & N & Ik). subst i.
  pose proof (SortedOwnProofs2.sub_incr Hv Ik) as Iv. fold (range lk l n) in Iv.
  pose proof (absent_card T Iv Hr C) as Am. rewrite <- Am in P.
  destruct (@place_row V chk tv lt eqb T a A r g B k lk gk (range lk l n) Ha N) as [Mv Pl]; [intros x; apply SortedOwnProofs2.sub_in|exact P|].
  pose proof (SortedOwnProofs2.insertsOwn_ok chk T Ha I N Ik Hv Mv Pl) as Q. fold (range lk l n) in Q. rewrite Q.
  split; [reflexivity|].
  destruct (@does_step V chk tv lt eqb dflt T a M (TInserts (length A) (range lk l n)) (put_at M (length A) (fun x => In x (range lk l n) \/ Si x)) R) as [(a' & r' & E' & Rt & Sh)|[Tf E']].
  - cbn. apply SortedProofs.increasing_strong. exact Iv.
  - cbn. unfold on_elem. rewrite Ni. reflexivity.
  - left. cbn [tstep] in E'. destruct (card_sum T I Iv Hr C) as [C1 C2]. cbn in Rt. pose proof (Rt _ _ _ _ Ni (put_nth _ Ni) C1 C2).
    exists a'. split; [rewrite E'; do 2 f_equal; lia|exact Sh].
  - right. auto.
Qed.
Print Assumptions C73_insert_range.
(** When m_values gets a new block the values of the argument are read from the freed one. *)
Theorem C73_moved : forall V (lt eqb : V -> V -> bool) (dflt : V) chk tv n0 cap0 h M a i k Si Sk lk l n m, total_order lt eqb ->
  Forall (tallowed lt) h -> set_run lt h (repeat none n0) = Some M -> tdriven chk tv lt eqb dflt n0 cap0 h = Ok a ->
  nth_error M i = Some Si -> nth_error M k = Some Sk -> is_set lt lk Sk -> l + n <= length lk ->
  cardinal (fun x => In x (range lk l n) /\ ~ Si x) m -> ~ has_room chk a i m -> ~ keeps_block chk a i m ->
  dangling tv (insertsIntoSetOwn chk tv true false BMalloc lt eqb a i k l n) /\
  (n = 1 -> dangling tv (insertIntoSetOwn chk tv true false BMalloc lt eqb a i k l)).
Proof.
  intros V lt eqb dflt chk tv n0 cap0 h M a i k Si Sk lk l n m T F H E Ni Nk Hk Hv C P1 P2.
  pose proof (driven_sets T F H E) as R. destruct (two_rows T R Ni Nk Hk) as (A & r & g & B & gk & Ha & Li & I & Hr & N & Ik). subst i.
  pose proof (SortedOwnProofs2.sub_incr Hv Ik) as Iv. fold (range lk l n) in Iv.
  pose proof (absent_card T Iv Hr C) as Am. rewrite <- Am in P1, P2.
  assert (Mv : OwnRangeProofs2.moves a A r g B (SortedProofs2.absent eqb (fun v => v) r (range lk l n)) = true).
  { destruct (OwnRangeProofs2.moves a A r g B _) eqn:Q; auto. apply (block_row chk _ Ha) in Q. tauto. }
  split; [exact (SortedOwnProofs2.insertsOwn_moves chk T Ha I N Ik Hv Mv)|]. intros ->.
  destruct (nth_error lk l) as [v|] eqn:Nv; [|apply nth_error_None in Nv; lia].
  assert (Rv : range lk l 1 = [v]).
  { unfold range. rewrite <- (firstn_skipn l lk), nth_error_app2 in Nv by (rewrite firstn_length; lia).
    rewrite firstn_length, Nat.min_l, Nat.sub_diag in Nv by lia. destruct (skipn l lk); [discriminate|]. injection Nv as ->. reflexivity. }
  rewrite Rv in Mv. exact (SortedOwnProofs2.insertOwn_moves chk T Ha I N Nv Mv).
Qed.
Print Assumptions C73_moved.

(** removeFromSet( i, a( k, l ) ) and removeFromSet( i, a[ k ].begin() + l, a[ k ].begin() + l + n ), always *)
Theorem C73_remove : forall V (lt eqb : V -> V -> bool) (dflt : V) chk tv n0 cap0 h M a i k Si Sk lk l v, total_order lt eqb ->
  Forall (tallowed lt) h -> set_run lt h (repeat none n0) = Some M -> tdriven chk tv lt eqb dflt n0 cap0 h = Ok a ->
  nth_error M i = Some Si -> nth_error M k = Some Sk -> is_set lt lk Sk -> nth_error lk l = Some v ->
  exists a' b, removeFromSetOwn chk tv lt eqb a i k l = Ok (a', b) /\ removeFromSet chk tv lt eqb a i v = Ok (a', b) /\ (b = true <-> Si v) /\
    shows chk lt eqb a' (put_at M i (fun x => Si x /\ x <> v)).
Proof.
  intros V lt eqb dflt chk tv n0 cap0 h M a i k Si Sk lk l v T F H E Ni Nk Hk Hv.
  pose proof (driven_sets T F H E) as R. destruct (two_rows T R Ni Nk Hk) as (A & r & g & B & gk & Ha & Li & I & Hr & N & Ik). subst i.
  rewrite (SortedOwnProofs2.removeOwn_ok chk lt eqb Ha N Hv).
  destruct (@AoSProofs.rep_remove V unit (fun _ => tt) chk tv true lt eqb T a M (length A) Si v R Ni) as ([a' b] & Er & R' & Pl). cbn [fst snd] in *.
  unfold removeFromSet. exists a', b. split; [exact Er|]. split; [exact Er|]. split.
  - assert (D : Si v \/ ~ Si v) by (eapply AoSProofs.dec; [exact T|exact Hr]).
    assert (C : cardinal (fun x => In x [v] /\ Si x) (if b then 1 else 0) \/ (cardinal (fun x => In x [v] /\ Si x) (if b then 0 else 1))).
    { destruct D as [D|D].
      - assert (Q : cardinal (fun x => In x [v] /\ Si x) 1) by (exists [v]; repeat split; [repeat constructor; auto|simpl in *; tauto|destruct H0 as [<-|[]]; auto|simpl in *; tauto]).
        destruct b; auto.
      - assert (Q : cardinal (fun x => In x [v] /\ Si x) 0) by (exists []; repeat split; [constructor|destruct H0|destruct H0|intros [[<-|[]] Q]; tauto]).
        destruct b; auto. }
    destruct C as [C|C].
    + destruct D as [D|D].
      * split; auto. intros _. destruct b; auto. exfalso. destruct C as (l0 & _ & Hl & L0). destruct l0; [|discriminate]. apply (proj2 (Hl v)). simpl; auto.
      * split; [|tauto]. intros ->. exfalso. destruct C as (l0 & _ & Hl & L0). destruct l0 as [|y l0]; [discriminate|]. destruct (proj1 (Hl y) (or_introl eq_refl)) as [[<-|[]] Q]. auto.
    + exfalso. destruct (card_diff T I Hr C) as (d & C1 & C2). pose proof (Pl _ _ C1 C2) as Q. destruct b; cbn in Q; lia.
  - eapply rep_shows; [exact T|]. eapply AoSProofs.rep_cast; [exact R'|]. apply AoSProofs.put_ext. unfold AoSProofs.diff_set. simpl. intros x. intuition.
Qed.
Print Assumptions C73_remove.
Theorem C73_remove_range : forall V (lt eqb : V -> V -> bool) (dflt : V) chk tv n0 cap0 h M a i k Si Sk lk l n m, total_order lt eqb ->
  Forall (tallowed lt) h -> set_run lt h (repeat none n0) = Some M -> tdriven chk tv lt eqb dflt n0 cap0 h = Ok a ->
  nth_error M i = Some Si -> nth_error M k = Some Sk -> is_set lt lk Sk -> l + n <= length lk ->
  cardinal (fun x => In x (range lk l n) /\ Si x) m ->
  exists a', removesFromSetOwn chk tv lt eqb a i k l n = Ok (a', m) /\ removesFromSet chk tv lt eqb a i (range lk l n) = Ok (a', m) /\
    shows chk lt eqb a' (put_at M i (fun x => Si x /\ ~ In x (range lk l n))).
Proof.
  intros V lt eqb dflt chk tv n0 cap0 h M a i k Si Sk lk l n m T F H E Ni Nk Hk Hv C.
  pose proof (driven_sets T F H E) as R. destruct (two_rows T R Ni Nk Hk) as (A & r & g & B & gk & Ha & Li & I & Hr & N & Ik). subst i.
  pose proof (SortedOwnProofs2.removesOwn_ok chk T Ha I N Ik Hv) as Q. fold (range lk l n) in Q. rewrite Q.
  pose proof (SortedOwnProofs2.sub_incr Hv Ik) as Iv. fold (range lk l n) in Iv.
  destruct (@AoSProofs.rep_removes V unit (fun _ => tt) chk tv true lt eqb T a M (length A) Si (range lk l n) R Ni Iv) as ([a' b] & Er & R' & Pl). cbn [fst snd] in *.
  destruct (card_diff T I Hr C) as (d & C1 & C2). pose proof (Pl _ _ C1 C2) as Qm. assert (b = m) by lia. subst b.
  exists a'. split; [exact Er|]. split; [exact Er|]. eapply rep_shows; [exact T|]. exact R'.
Qed.
Print Assumptions C73_remove_range.

(** When set [i] grows into the unused values of the block and so moves set [k] behind it, the argument is read where set [k] was. Here
    insertIntoSet( 0, a( 1, 3 ) ) inserts 6 although a( 1, 3 ) is 9, and with a type whose lifetimes are observable
    insertIntoSet( 0, a( 1, 1 ) ) reads a slot without a value. *)
Definition shifted : list (tcall nat) := [TReserveValues 20; TInsert 0 5; TInserts 1 [6; 7; 8; 9]].
Theorem C73_shifted_refuted :
  (exists a a', tdriven true true Nat.ltb Nat.eqb 0 2 1 shifted = Ok a /\ keeps_block true a 0 1 /\ aoa_at true a 1 3 = Ok 9 /\
     insertIntoSetOwn true true true false BMalloc Nat.ltb Nat.eqb a 0 1 3 = Ok (a', true) /\
     aos_contains true Nat.ltb Nat.eqb a' 0 9 = Ok false /\ aos_contains true Nat.ltb Nat.eqb a' 0 6 = Ok true) /\
  (exists a, tdriven true false Nat.ltb Nat.eqb 0 2 0 [TReserveValues 20; TInsert 0 4; TInsert 0 5; TInserts 1 [6; 7]] = Ok a /\
     keeps_block true a 0 1 /\ aoa_at true a 1 1 = Ok 7 /\
     insertIntoSetOwn true false true false BMalloc Nat.ltb Nat.eqb a 0 1 1 = Fault FRead).
Proof.
  split.
  - eexists _, _. split; [vm_compute; reflexivity|]. split; [|repeat split; vm_compute; reflexivity].
    exists 1, 1, 9. repeat split; [vm_compute; reflexivity..|apply Nat.leb_le; vm_compute; reflexivity].
  - eexists. split; [vm_compute; reflexivity|]. split; [|repeat split; vm_compute; reflexivity].
    exists 2, 2, 6. repeat split; [vm_compute; reflexivity..|apply Nat.leb_le; vm_compute; reflexivity].
Qed.
Print Assumptions C73_shifted_refuted.

(** Within the premises: the calls on s = { 1, 3, 5, 7, 9 } and on the sets { 5 } and { 6, 7, 8, 9 }; a(0) grows behind them without a new block
    when a(0) is last. *)
Definition hs : list (scall nat) := [SInsertRange [1; 3; 5; 7; 9]].
Definition own_sets : list (tcall nat) := [TReserveValues 30; TInserts 0 [6; 7; 8; 9]; TInsert 1 5].
Example C73_case :
  is_set Nat.ltb [1; 3; 5; 7; 9] (set_of hs) /\
  ('(a, _) <- srun true false BMalloc Nat.ltb Nat.eqb 0 hs (new_s nat BMalloc) ;;
   '(a1, b) <- s_insertOwn true false BMalloc Nat.ltb Nat.eqb a 2 ;; '(a2, n) <- s_removesOwn true false BMalloc Nat.ltb Nat.eqb a1 1 3 ;;
   x <- s_at true a2 1%Z ;; Ok (b, n, s_size a2, x)) = Ok (false, 3, 2, 9) /\
  (a <- tdriven true true Nat.ltb Nat.eqb 0 2 1 own_sets ;;
   '(a1, b) <- insertIntoSetOwn true true true false BMalloc Nat.ltb Nat.eqb a 1 0 3 ;;
   '(a2, n) <- insertsIntoSetOwn true true true false BMalloc Nat.ltb Nat.eqb a1 1 0 0 4 ;;
   '(a3, m) <- removesFromSetOwn true true Nat.ltb Nat.eqb a2 0 1 1 2 ;;
   s0 <- sizeOfArray true a3 0 ;; s1 <- sizeOfArray true a3 1 ;; x <- aoa_at true a3 0 0 ;; y <- aoa_at true a3 1 3 ;;
   Ok (b, n, m, (s0, s1, x, y))) = Ok (true, 3, 2, (2, 5, 8, 8)) /\
  (exists a, tdriven true true Nat.ltb Nat.eqb 0 2 1 own_sets = Ok a /\ keeps_block true a 1 4 /\ ~ has_room true a 1 4 /\ may_insert true a 1 0 4) /\
  (a <- tdriven true true Nat.ltb Nat.eqb 0 2 1 [TInserts 0 [6; 7; 8; 9]; TInsert 1 5; TReserveValues 9; TCompress; TInserts 1 [1; 2; 3; 4]; TSetCapacity 1 5; TAppendSet 9] ;;
   '(a1, b) <- insertIntoSetOwn true true true false BMalloc Nat.ltb Nat.eqb a 1 0 3 ;; Ok b) = Fault FDangling.
Proof.
  split; [|split; [vm_compute; reflexivity|split; [vm_compute; reflexivity|split; [|vm_compute; reflexivity]]]].
  - split; [apply SortedProofs.increasing_strong; repeat constructor|]. intros x. cbn. intuition.
  - assert (K : forall a, tdriven true true Nat.ltb Nat.eqb 0 2 1 own_sets = Ok a -> keeps_block true a 1 4 /\ ~ has_room true a 1 4).
    { intros a E. vm_compute in E. injection E as <-. split.
      - exists 1, 1, 9. repeat split; [vm_compute; reflexivity..|apply Nat.leb_le; vm_compute; reflexivity].
      - intros (s & c & Es & Ec & L). vm_compute in Es, Ec. injection Es as <-. injection Ec as <-. lia. }
    destruct (tdriven true true Nat.ltb Nat.eqb 0 2 1 own_sets) as [a| |] eqn:E; [|vm_compute in E; discriminate..].
    destruct (K a eq_refl) as [K1 K2]. exists a. split; [reflexivity|]. split; [exact K1|]. split; [exact K2|]. right. right. split; [lia|exact K1].
Qed.
