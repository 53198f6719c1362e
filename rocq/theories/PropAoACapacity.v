(** C86: capacity() of ArrayOfArrays and ArrayOfSets. *)
From Coq Require Import List Arith ZArith Lia Bool.
From Verif Require Import Base Mem BufferManip AoA AoS AoASpec SortedSpec AoSSpec AoACapacity AoACapacityProofs PropAoA PropAoS.
From Verif Require AoALayout.
Import ListNotations.
Set Implicit Arguments.

(** ArrayOfArrays a( n0, cap0 ): n0 sizes and n0 + 1 offsets *)
Definition fresh (n0 : nat) : room := mkRoom n0 n0 (n0 + 1).

(** After every history which ends normally, the number of arrays and the capacities of m_sizes and m_offsets
    are those of the specification, whatever T is and whatever the checks. *)
Theorem C86_slots : forall V (dflt : V) chk tv n0 cap0 h a, driven chk tv dflt n0 cap0 h = Ok a ->
  mkRoom (numArrays a) (BufferManip.capacity (szs a)) (BufferManip.capacity (offs a)) = rooms h (fresh n0).
Proof.
  intros V dflt chk tv n0 cap0 h a E. unfold driven in E.
  assert (P : has a (rooms h (fresh n0))).
  { revert a E. fold (post (b <- new_aoa V unit chk tv true false BMalloc n0 cap0 ;; arun chk tv true false BMalloc dflt h b) (fun a => has a (rooms h (fresh n0)))).
    eapply post_bind; [ apply new_room | ]. intros x Hx. apply run_room. exact Hx. }
  destruct P as (A & B & C). unfold BufferManip.capacity. rewrite A, B, C. destruct (rooms h (fresh n0)); reflexivity.
Qed.
Print Assumptions C86_slots.

Theorem C86_sets_slots : forall V (lt eqb : V -> V -> bool) (dflt : V) chk tv n0 cap0 h a,
  tdriven chk tv lt eqb dflt n0 cap0 h = Ok a ->
  mkRoom (numArrays a) (BufferManip.capacity (szs a)) (BufferManip.capacity (offs a)) = rooms_sets h (fresh n0).
Proof.
  intros V lt eqb dflt chk tv n0 cap0 h a E. unfold tdriven in E.
  assert (P : has a (rooms_sets h (fresh n0))).
  { revert a E. fold (post (b <- new_aoa V unit chk tv true false BMalloc n0 cap0 ;; trun chk tv true false BMalloc lt eqb dflt h b) (fun a => has a (rooms_sets h (fresh n0)))).
    eapply post_bind; [ apply new_room | ]. intros x Hx. apply trun_room. exact Hx. }
  destruct P as (A & B & C). unfold BufferManip.capacity. rewrite A, B, C. destruct (rooms_sets h (fresh n0)); reflexivity.
Qed.
Print Assumptions C86_sets_slots.

(** capacity() after every history: the slots of m_sizes; a debug build stops when there are not more slots
    in m_offsets. *)
Theorem C86_capacity : forall V (dflt : V) chk tv n0 cap0 h a dbg, driven chk tv dflt n0 cap0 h = Ok a ->
  capacity_of dbg a =
    (if (dbg && (offset_slots (rooms h (fresh n0)) <=? size_slots (rooms h (fresh n0))))%bool then Abort
     else Ok (size_slots (rooms h (fresh n0)))).
Proof.
  intros V dflt chk tv n0 cap0 h a dbg E. apply C86_slots in E. unfold capacity_of, aoa_capacity, check_if.
  rewrite <- E. simpl. rewrite <- Nat.leb_antisym. destruct (dbg && _)%bool; reflexivity.
Qed.
Print Assumptions C86_capacity.

(** The returned value is the documented one exactly in the states which the assertion accepts (as long as
    there is an array to be added without reallocation according to either of the two). *)
Theorem C86_assertion_is_exact : forall r, arrays r < size_slots r ->
  (documented_capacity r (size_slots r) <-> size_slots r < offset_slots r).
Proof.
  intros r L. split.
  - intros D. apply documented_unique in D; [ lia | lia ].
  - intros H. pose proof (documented_min r) as D. rewrite Nat.min_l in D by lia. exact D.
Qed.
Print Assumptions C86_assertion_is_exact.

(** Without calls adding a single array the assertion holds and capacity() returns what is documented. *)
Theorem C86_without_single_additions : forall V (dflt : V) chk tv n0 cap0 h a dbg,
  forallb no_single h = true -> driven chk tv dflt n0 cap0 h = Ok a ->
  exists c, capacity_of dbg a = Ok c /\
    documented_capacity (mkRoom (numArrays a) (BufferManip.capacity (szs a)) (BufferManip.capacity (offs a))) c.
Proof.
  intros V dflt chk tv n0 cap0 h a dbg N E. rewrite (C86_capacity _ _ _ _ _ _ dbg E). rewrite (C86_slots _ _ _ _ _ _ E).
  pose proof (no_single_slots h N (fresh n0) eq_refl) as O. set (r := rooms h (fresh n0)) in *.
  destruct (Nat.leb_spec (offset_slots r) (size_slots r)); [ lia | ]. rewrite andb_false_r.
  exists (size_slots r). split; [ reflexivity | ].
  pose proof (documented_min r) as D. rewrite Nat.min_l in D by lia. exact D.
Qed.
Print Assumptions C86_without_single_additions.

(** reserve( m ): as long as there are never more than m arrays, neither block is replaced. *)
Theorem C86_reserve : forall V (dflt : V) chk tv n0 cap0 h m h1 a1 a2,
  at_most m h1 (rooms (h ++ [AReserve m]) (fresh n0)) = true ->
  driven chk tv dflt n0 cap0 (h ++ [AReserve m]) = Ok a1 ->
  driven chk tv dflt n0 cap0 ((h ++ [AReserve m]) ++ h1) = Ok a2 ->
  BufferManip.capacity (szs a2) = BufferManip.capacity (szs a1) /\ BufferManip.capacity (offs a2) = BufferManip.capacity (offs a1).
Proof.
  intros V dflt chk tv n0 cap0 h m h1 a1 a2 A E1 E2. apply C86_slots in E1. apply C86_slots in E2.
  rewrite rooms_app, <- E1 in E2. rewrite <- E1 in A.
  assert (R : m <= BufferManip.capacity (szs a1) /\ m + 1 <= BufferManip.capacity (offs a1)).
  { rewrite rooms_app in E1. simpl in E1. unfold at_least in E1. inversion E1 as [[X Y Z]]. lia. }
  destruct (@at_most_slots V m h1 _ A) as (S & O); [ exact (proj1 R) | exact (proj2 R) | ].
  rewrite <- E2 in S, O. simpl in S, O. auto.
Qed.
Print Assumptions C86_reserve.

(** The assertion and the documentation are wrong: whatever the number of arrays at construction, n0 + 3 calls
    of appendArray lead to a state with 2 n0 + 3 arrays in which a debug build stops inside capacity(), while a
    release build returns 4 n0 + 6 although not a single further array fits into m_offsets. *)
Theorem C86_capacity_refuted : forall V (dflt : V) chk n0 cap0, exists a,
  driven chk true dflt n0 cap0 (repeat (AAppend 0) (n0 + 3)) = Ok a /\
  numArrays a = 2 * n0 + 3 /\ BufferManip.capacity (offs a) = numArrays a + 1 /\
  capacity_of true a = Abort /\ capacity_of false a = Ok (4 * n0 + 6) /\
  (forall r c, r = mkRoom (numArrays a) (BufferManip.capacity (szs a)) (BufferManip.capacity (offs a)) ->
     capacity_of false a = Ok c -> ~ documented_capacity r c) /\
  exists a', astep chk true true false BMalloc dflt (AAppend 0) a = Ok a' /\
    BufferManip.capacity (szs a') = BufferManip.capacity (szs a) /\ BufferManip.capacity (offs a') = 2 * (numArrays a + 2).
Proof.
  intros V dflt chk n0 cap0.
  assert (G : forall k M, exists M', vec_run dflt (repeat (AAppend 0) k) M = Some M').
  { induction k; intros M; simpl; eauto. }
  destruct (G (n0 + 3) (repeat [] n0)) as (M & EM). destruct (@C22_vector_of_vectors V dflt chk n0 cap0 _ _ EM) as (a & E & _).
  destruct (G (n0 + 3 + 1) (repeat [] n0)) as (M1 & EM1). destruct (@C22_vector_of_vectors V dflt chk n0 cap0 _ _ EM1) as (a1 & E1 & _).
  exists a. split; [ exact E | ]. pose proof (C86_slots _ _ _ _ _ _ E) as R. unfold fresh in R. rewrite rooms_appends, from_new in R.
  pose proof (C86_capacity _ _ _ _ _ _ true E) as CT. pose proof (C86_capacity _ _ _ _ _ _ false E) as CF.
  unfold fresh in CT, CF. rewrite rooms_appends, from_new in CT, CF. cbn [offset_slots size_slots] in CT, CF. cbn [andb] in CF.
  replace (2 * n0 + 4 <=? 4 * n0 + 6) with true in CT by (symmetry; apply Nat.leb_le; lia). cbn [andb] in CT.
  inversion R as [[RA RS RO]].
  assert (H1 : exists a', astep chk true true false BMalloc dflt (AAppend 0) a = Ok a').
  { unfold driven in E, E1. destruct (new_aoa V unit chk true true false BMalloc n0 cap0) as [b| |f]; try discriminate. cbn [bind] in *.
    rewrite repeat_app in E1. revert E E1. generalize (repeat (@AAppend V 0) (n0 + 3)). intros h. revert b.
    induction h as [|c h IH]; intros b E E1.
    - cbn [arun] in E. inversion E. subst b. simpl app in E1. cbn [repeat arun] in E1.
      destruct (astep chk true true false BMalloc dflt (AAppend 0) a) as [x| |f]; try discriminate. eauto.
    - simpl in E, E1. destruct (astep chk true true false BMalloc dflt c b) as [x| |f]; try discriminate. cbn [bind] in *. eauto. }
  destruct H1 as (a' & Ea'). pose proof (@step_room V unit chk true true false dflt (AAppend 0) a (mkRoom (2 * n0 + 3) (4 * n0 + 6) (2 * n0 + 4))) as SR.
  specialize (SR ltac:(repeat split; assumption) a' Ea'). destruct SR as (SA & SS & SO).
  cbn [room_after one_more arrays size_slots offset_slots] in SA, SS, SO.
  rewrite twice_keeps in SS by lia. rewrite twice_grows in SO by lia.
  split; [ exact RA | ]. split; [ lia | ]. split; [ exact CT | ]. split; [ exact CF | ]. split.
  - intros r c -> C D. rewrite CF in C. inversion C. subst c. apply documented_unique in D; cbn [arrays size_slots offset_slots] in *; lia.
  - exists a'. split; [ exact Ea' | ]. unfold BufferManip.capacity in *. split; lia.
Qed.
Print Assumptions C86_capacity_refuted.

(** The same for ArrayOfSets and appendSet *)
Theorem C86_sets_refuted : forall V (lt eqb : V -> V -> bool) (dflt : V) chk n0 cap0, total_order lt eqb -> exists a,
  tdriven chk true lt eqb dflt n0 cap0 (repeat (@TAppendSet V 0) (n0 + 3)) = Ok a /\
  numArrays a = 2 * n0 + 3 /\ BufferManip.capacity (offs a) = numArrays a + 1 /\
  capacity_of true a = Abort /\ capacity_of false a = Ok (4 * n0 + 6).
Proof.
  intros V lt eqb dflt chk n0 cap0 T.
  assert (G : forall k M, exists M', set_run lt (repeat (@TAppendSet V 0) k) M = Some M').
  { induction k; intros M; simpl; eauto. }
  assert (F : Forall (tallowed lt) (repeat (@TAppendSet V 0) (n0 + 3))).
  { apply Forall_forall. intros c H. apply repeat_spec in H. subst c. exact Logic.I. }
  destruct (G (n0 + 3) (repeat none n0)) as (M & EM).
  pose proof (@tdriven_rep V lt eqb T chk true dflt n0 cap0 _ F) as D. rewrite EM in D.
  destruct D as [(a & E & _)|[X _]]; [ | discriminate ]. exists a. split; [ exact E | ].
  pose proof (C86_sets_slots _ _ _ _ _ _ _ _ E) as R. unfold fresh in R. rewrite rooms_sets_appends, from_new in R.
  inversion R as [[RA RS RO]]. split; [ exact RA | ]. split; [ lia | ].
  unfold capacity_of, aoa_capacity, check_if. rewrite RS, RO. change (n0 + (n0 + (n0 + (n0 + 0))) + 6) with (4 * n0 + 6). change (n0 + (n0 + 0) + 4) with (2 * n0 + 4).
  replace (4 * n0 + 6 <? 2 * n0 + 4) with false by (symmetry; apply Nat.ltb_ge; lia). split; reflexivity.
Qed.
Print Assumptions C86_sets_refuted.

(** A default array: three arrays later m_sizes has 6 slots and m_offsets 4. *)
Example C86_case :
  match driven true true 0 0 0 [AAppend 0; AAppend 2; AInsertArray 1 [7]] with
  | Ok a => (numArrays a, length (szs a), length (offs a), capacity_of true a, capacity_of false a) = (3, 6, 4, Abort, Ok 6)
  | _ => False
  end.
Proof. vm_compute. reflexivity. Qed.
Example C86_case_resize :
  match driven true true 0 2 1 [AResize 5 2; AReserve 8; AEraseArray 1] with
  | Ok a => (numArrays a, length (szs a), length (offs a), capacity_of true a) = (4, 8, 9, Ok 8)
  | _ => False
  end.
Proof. vm_compute. reflexivity. Qed.
