(** C81: ArrayOfSetsView::consistencyCheck and ArrayOfSets::assimilate of arrays which are not as described. *)
From Coq Require Import List Arith ZArith Lia Bool.
From Verif Require Import Base BaseProofs Mem BufferManip SortedSpec SortedArraySpec AoA AoASpec AoS AoSSpec Consistency ConsistencySpec.
From Verif Require AoALayout AoAProofs AoAProofs4 SetsProofs2 ConsistencyProofs PropAoA PropAoS SortedProofs.
Import ListNotations.
Set Implicit Arguments.

Section Help.
Variable V : Type.
Notation aok tv := (@AoAProofs.aok V V unit (fun v => v) (fun _ => tt) tv true false).
Lemma driven_aok chk tv (dflt : V) n cap h M a : vec_run dflt h (repeat [] n) = Some M -> PropAoA.driven chk tv dflt n cap h = Ok a ->
  exists L, aok tv a L /\ map fst L = M.
Proof.
  intros H E. pose proof (PropAoA.driven_rep chk tv dflt n cap h) as D. rewrite H in D.
  destruct D as [(a' & Ea & R)|[_ Ea]]; rewrite E in Ea; [|discriminate]. injection Ea as <-. destruct R as (L & R & <- & _). eauto.
Qed.
Lemma aok_displays chk tv a L : aok tv a L -> PropAoA.displays chk a (map fst L).
Proof. intros H. eapply PropAoA.rep_displays. exists L. eauto. Qed.
Lemma tdriven_ok (lt eqb : V -> V -> bool) (T : total_order lt eqb) chk tv dflt n cap h M a : Forall (tallowed lt) h ->
  set_run lt h (repeat none n) = Some M -> PropAoS.tdriven chk tv lt eqb dflt n cap h = Ok a ->
  @SetsProofs2.rep V V unit (fun v => v) (fun _ => tt) tv true false lt a M.
Proof.
  intros F H E. pose proof (PropAoS.tdriven_rep T chk tv dflt n cap F) as D. rewrite H in D.
  destruct D as [(a' & Ea & R)|[_ Ea]]; rewrite E in Ea; [|discriminate]. injection Ea as <-. exact R.
Qed.
End Help.

(** The check never fails on an ArrayOfSets. *)
Theorem C81_sets_consistent : forall V (lt eqb : V -> V -> bool) (dflt : V) chk tv n cap h M a, total_order lt eqb ->
  Forall (tallowed lt) h -> set_run lt h (repeat none n) = Some M -> PropAoS.tdriven chk tv lt eqb dflt n cap h = Ok a ->
  consistencyCheck chk lt a = Ok tt.
Proof.
  intros V lt eqb dflt chk tv n cap h M a T F H E. exact (ConsistencyProofs.rep_consistent chk T (tdriven_ok T chk tv dflt n cap F H E)).
Qed.
Print Assumptions C81_sets_consistent.

(** On the arrays of an ArrayOfArrays, seen as sets: it passes if all of them are increasing, and then they
    behave as sets; otherwise it ends in the error handler, with and without LVARRAY_BOUNDS_CHECK. *)
Theorem C81_check_decides : forall V (lt eqb : V -> V -> bool) (dflt : V) chk tv n cap h M a, total_order lt eqb ->
  vec_run dflt h (repeat [] n) = Some M -> PropAoA.driven chk tv dflt n cap h = Ok a ->
  (Forall (increasing lt) M -> consistencyCheck chk lt a = Ok tt /\ PropAoS.shows chk lt eqb a (map (fun r x => In x r) M)) /\
  (~ Forall (increasing lt) M -> consistencyCheck chk lt a = Abort).
Proof.
  intros V lt eqb dflt chk tv n cap h M a T H E. destruct (driven_aok chk tv dflt n cap h H E) as (L & R & <-).
  rewrite (ConsistencyProofs.consistency_rows chk lt R). pose proof (ConsistencyProofs.all_unique T (map fst L)) as U. split; intros G.
  - rewrite (proj2 U G). split; auto.
    apply (PropAoS.rep_shows T chk (tv := tv)). refine (@ConsistencyProofs.turned_rep V unit (fun _ => tt) tv true lt eqb T SortedUnique a (map fst L) L R _ G).
    clear. induction L; simpl; constructor; auto. reflexivity.
  - destruct (forallb _ _); auto. exfalso. apply G, U. reflexivity.
Qed.
Print Assumptions C81_check_decides.

(** assimilate with the check switched on (ARRAY_BOUNDS_CHECK defined), of any arrays under any description. *)
Theorem C81_assimilate_checked : forall V (lt eqb : V -> V -> bool) (dflt : V) chk tv sort h0 n0 cap0 M0 this h n cap M src d, total_order lt eqb ->
  sorts lt sort ->
  Forall (tallowed lt) h0 -> set_run lt h0 (repeat none n0) = Some M0 -> PropAoS.tdriven chk tv lt eqb dflt n0 cap0 h0 = Ok this ->
  vec_run dflt h (repeat [] n) = Some M -> PropAoA.driven chk tv dflt n cap h = Ok src ->
  (Forall (acceptable lt d) M -> exists a, full_assimilate chk lt tv true false BMalloc dflt sort true this src d = Ok a /\
     PropAoS.shows chk lt eqb a (map (made_set lt d) M)) /\
  (~ Forall (acceptable lt d) M -> full_assimilate chk lt tv true false BMalloc dflt sort true this src d = Abort).
Proof.
  intros V lt eqb dflt chk tv sort h0 n0 cap0 M0 this h n cap M src d T HS F0 H0 E0 H E.
  destruct (tdriven_ok T chk tv dflt n0 cap0 F0 H0 E0) as (L0 & R0 & _). destruct (driven_aok chk tv dflt n cap h H E) as (L & R & <-).
  destruct (@ConsistencyProofs.full_ok V unit (fun _ => tt) chk tv true lt eqb T dflt sort HS true this src L d) as (a & L' & _ & Ra & Tu & ->); auto.
  { exists L0. apply AoAProofs.aok_pok. exact R0. }
  pose proof (ConsistencyProofs.all_unique T (map fst L')) as U. pose proof (ConsistencyProofs.turned_all T Tu) as Ta. cbn [negb orb]. split; intros G.
  - rewrite (proj2 U (proj2 Ta G)). exists a. split; auto. apply (PropAoS.rep_shows T chk (tv := tv)). exact (ConsistencyProofs.turned_rep T Ra Tu G).
  - destruct (forallb _ _); auto. exfalso. apply G, Ta, U. reflexivity.
Qed.
Print Assumptions C81_assimilate_checked.

(** As built, nothing is checked: whatever the arrays and the description, assimilate ends normally, and the new
    ArrayOfSets has the arrays the description leads to, whether they are sets or not. *)
Theorem C81_assimilate_as_built : forall V (lt eqb : V -> V -> bool) (dflt : V) chk tv sort h0 n0 cap0 M0 this h n cap M src d, total_order lt eqb ->
  sorts lt sort ->
  Forall (tallowed lt) h0 -> set_run lt h0 (repeat none n0) = Some M0 -> PropAoS.tdriven chk tv lt eqb dflt n0 cap0 h0 = Ok this ->
  vec_run dflt h (repeat [] n) = Some M -> PropAoA.driven chk tv dflt n cap h = Ok src ->
  exists a M', full_assimilate chk lt tv true false BMalloc dflt sort false this src d = Ok a /\
    Forall2 (turned lt d) M M' /\ PropAoA.displays chk a M' /\
    (consistencyCheck chk lt a = Ok tt <-> Forall (acceptable lt d) M).
Proof.
  intros V lt eqb dflt chk tv sort h0 n0 cap0 M0 this h n cap M src d T HS F0 H0 E0 H E.
  destruct (tdriven_ok T chk tv dflt n0 cap0 F0 H0 E0) as (L0 & R0 & _). destruct (driven_aok chk tv dflt n cap h H E) as (L & R & <-).
  destruct (@ConsistencyProofs.full_ok V unit (fun _ => tt) chk tv true lt eqb T dflt sort HS false this src L d) as (a & L' & _ & Ra & Tu & Ef); auto.
  { exists L0. apply AoAProofs.aok_pok. exact R0. }
  exists a, (map fst L'). split; [exact Ef|]. split; [exact Tu|]. split; [exact (aok_displays chk Ra)|].
  rewrite (ConsistencyProofs.consistency_rows chk lt Ra). rewrite <- (ConsistencyProofs.turned_all T Tu), <- (ConsistencyProofs.all_unique T).
  destruct (forallb _ _); split; congruence.
Qed.
Print Assumptions C81_assimilate_as_built.

(** Arrays called SORTED_UNIQUE which are not: as built the ArrayOfSets does not find a value it holds, and
    inserts it a second time. *)
Theorem C81_untruthful_refuted :
  exists src a, PropAoA.driven true true 0 1 2 [AEmplaceBack 0 3; AEmplaceBack 0 1] = Ok src /\
    full_assimilate true Nat.ltb true true false BMalloc 0 PropAoS.simple_sort false (null_aoa nat unit BMalloc) src SortedUnique = Ok a /\
    aoa_at true a 0 0 = Ok 3 /\ aos_contains true Nat.ltb Nat.eqb a 0 3 = Ok false /\
    consistencyCheck true Nat.ltb a = Abort /\
    exists a', insertIntoSet true true true false BMalloc Nat.ltb Nat.eqb a 0 3 = Ok (a', true) /\ sizeOfArray true a' 0 = Ok 3.
Proof. do 2 eexists. split; [vm_compute; reflexivity|]. split; [vm_compute; reflexivity|]. do 3 (split; [vm_compute; reflexivity|]). eexists. split; vm_compute; reflexivity. Qed.
Print Assumptions C81_untruthful_refuted.
(** Arrays called SORTED_WITH_DUPLICATES which are not sorted: values are lost, and even the check passes. *)
Theorem C81_check_misses_lost_values_refuted :
  exists src a, PropAoA.driven true true 0 1 2 [AEmplaceBack 0 3; AEmplaceBack 0 1] = Ok src /\
    full_assimilate true Nat.ltb true true false BMalloc 0 PropAoS.simple_sort true (null_aoa nat unit BMalloc) src SortedWithDuplicates = Ok a /\
    consistencyCheck true Nat.ltb a = Ok tt /\ sizeOfArray true a 0 = Ok 1 /\ aos_contains true Nat.ltb Nat.eqb a 0 1 = Ok false.
Proof. do 2 eexists. split; [vm_compute; reflexivity|]. do 3 (split; [vm_compute; reflexivity|]). vm_compute; reflexivity. Qed.
Print Assumptions C81_check_misses_lost_values_refuted.

Example C81_case :
  (a <- PropAoS.tdriven true true Nat.ltb Nat.eqb 0 2 1 PropAoS.ht ;; consistencyCheck true Nat.ltb a) = Ok tt /\
  (src <- PropAoA.driven true false 0 2 0 [AResizeArray 0 1 7; AResizeArray 1 2 8; AEmplaceBack 0 4] ;;
   full_assimilate true Nat.ltb false true false BMalloc 0 PropAoS.simple_sort true (null_aoa nat unit BMalloc) src UnsortedNoDuplicates) = Abort /\
  (src <- PropAoA.driven true false 0 2 0 [AResizeArray 0 1 7; AEmplaceBack 1 8; AEmplaceBack 0 4] ;;
   a <- full_assimilate true Nat.ltb false true false BMalloc 0 PropAoS.simple_sort true (null_aoa nat unit BMalloc) src UnsortedNoDuplicates ;;
   x <- aoa_at true a 0 0 ;; y <- aoa_at true a 0 1 ;; Ok (x, y)) = Ok (4, 7).
Proof. vm_compute. auto. Qed.
