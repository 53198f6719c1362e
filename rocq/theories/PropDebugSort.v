(** C94: the sorting routines in a debug build. *)
From Coq Require Import List Arith ZArith Lia Bool Permutation.
From Verif Require Import Base Mem Sorted SortedSpec Debug Introsort DebugSort DebugSortProofs PropSorted PropSort.
From Verif Require BaseProofs MemProofs SortedProofs IntrosortProofs.
Import ListNotations.
Set Implicit Arguments.
Unset Strict Implicit.

(** dualSort sorts the pairs or aborts, and it aborts exactly where the release build writes past the end of the array
    of ranges; this needs more than MAX_RANGES + 63 elements. *)
Theorem C94_dualSort : forall V W (lt : V -> V -> bool) tv tw mx, strict_weak_order lt -> 1 <= mx ->
  forall (p s : buf V) (q u : buf W) (es : list (V * W)),
  let a0 := stored p (map fst es) s in
  let b0 := stored q (map snd es) u in
  let release := dualSort_with tv tw (mx + 1) lt a0 (length p) b0 (length q) (length es) in
  let debug := d_dualSort true tv tw mx lt a0 (length p) b0 (length q) (length es) in
  (exists a b es', debug = Ok (a, b) /\ release = Ok (a, b) /\
     is_buffer tv a (stored p (map fst es') s) /\ is_buffer tw b (stored q (map snd es') u) /\
     Permutation es es' /\ sorted lt (map fst es')) \/
  (mx + 63 < length es /\ debug = Abort /\ release = Fault FOob).
Proof.
  intros V W lt tv tw mx S2 Hm p s q u es a0 b0 release debug.
  pose proof (IntrosortProofs.dual_ok tv tw (map (@abs V) p) (map (@abs V) s) (map (@abs W) q) (map (@abs W) u)) as D.
  rewrite !map_length in D.
  destruct (d_sort D S2 (mx := mx) (s := (a0, b0)) (es := es) (n := length es) Hm) as [(r & E & E')|[E E']]; [ split; apply rb_stored | reflexivity | | ].
  - destruct (C20_dualSort tv tw (slots := mx + 1) S2 ltac:(lia) p s q u es) as [(a & b & es' & E1 & X)|[_ E1]].
    + left. exists a, b, es'. split; [ | split; [ exact E1 | exact X ] ]. assert (Q : Ok r = Ok (a, b)) by (transitivity release; [ symmetry; exact E | exact E1 ]). injection Q as ->. exact E'.
    + assert (Q : Ok r = Fault FOob) by (transitivity release; [ symmetry; exact E | exact E1 ]). discriminate.
  - destruct (C20_dualSort tv tw (slots := mx + 1) S2 ltac:(lia) p s q u es) as [(a & b & es' & E1 & X)|[B E1]].
    + assert (Q : Fault FOob = Ok (a, b)) by (transitivity release; [ symmetry; exact E | exact E1 ]). discriminate.
    + right. split; [ lia | ]. split; [ exact E' | exact E1 ].
Qed.
Print Assumptions C94_dualSort.

(** The same for makeSorted compiled for a device. *)
Theorem C94_makeSorted_device : forall V (lt : V -> V -> bool) tv mx, strict_weak_order lt -> 1 <= mx ->
  forall (p s : buf V) (l : list V),
  let release := makeSorted_with tv (mx + 1) lt (stored p l s) (length p) (length l) in
  let debug := d_makeSorted true tv mx lt (stored p l s) (length p) (length l) in
  (exists b l', debug = Ok b /\ release = Ok b /\ is_buffer tv b (stored p l' s) /\ Permutation l l' /\ sorted lt l') \/
  (mx + 63 < length l /\ debug = Abort /\ release = Fault FOob).
Proof.
  intros V lt tv mx S2 Hm p s l release debug.
  pose proof (IntrosortProofs.plain_ok tv (map (@abs V) p) (map (@abs V) s)) as D. rewrite !map_length in D.
  pose proof (rb_stored tv (fun v : V => v) p l s) as M. rewrite map_id in M.
  destruct (d_sort D S2 (mx := mx) Hm M eq_refl) as [(r & E & E')|[E E']].
  - destruct (C20_makeSorted_device tv (slots := mx + 1) S2 ltac:(lia) p s l) as [(b & l' & E1 & X)|[_ E1]].
    + left. exists b, l'. split; [ | split; [ exact E1 | exact X ] ]. assert (Q : Ok r = Ok b) by (transitivity release; [ symmetry; exact E | exact E1 ]). injection Q as ->. exact E'.
    + assert (Q : Ok r = Fault FOob) by (transitivity release; [ symmetry; exact E | exact E1 ]). discriminate.
  - destruct (C20_makeSorted_device tv (slots := mx + 1) S2 ltac:(lia) p s l) as [(b & l' & E1 & X)|[B E1]].
    + assert (Q : Fault FOob = Ok b) by (transitivity release; [ symmetry; exact E | exact E1 ]). discriminate.
    + right. split; [ lia | ]. split; [ exact E' | exact E1 ].
Qed.
Print Assumptions C94_makeSorted_device.

(** With the constant of the code, the 125 integers of C21 can be sorted by neither build: a valid input ends the debug build. *)
Theorem C94_abort_refuted : exists es : list nat, length es = 125 /\
  d_dualSort true true true MAX_RANGES Nat.ltb (map (@Obj nat) es) 0 (map (@Obj nat) es) 0 125 = Abort /\
  d_makeSorted true true MAX_RANGES Nat.ltb (map (@Obj nat) es) 0 125 = Abort.
Proof. exists killer. split; [ reflexivity | ]. split; vm_compute; reflexivity. Qed.
Print Assumptions C94_abort_refuted.

(** Without assertions nothing changes, so that the comparison above is with the release build. *)
Theorem C94_release : forall V W (lt : V -> V -> bool) tv tw mx a p b q n,
  @d_dualSort false V W tv tw mx lt a p b q n = dualSort_with tv tw (mx + 1) lt a p b q n /\
  @d_makeSorted false V tv mx lt a p n = makeSorted_with tv (mx + 1) lt a p n.
Proof.
  assert (L : forall V St T (lt : V -> V -> bool) (I : iter V St T) mx fuel ranges nR s,
    d_intro_loop false lt I mx fuel ranges nR s = intro_loop lt I fuel ranges nR s).
  { intros V St T lt I mx. induction fuel as [|fuel IH]; intros ranges nR s; cbn [d_intro_loop intro_loop]; [ reflexivity | ].
    destruct (nR =? 0); auto. destruct (aget ranges (nR - 1)); auto. cbn [bind]. destruct (aget ranges nR); auto. cbn [bind].
    destruct (INTROSORT_THRESHOLD <? _); auto. cbn [assert_ check_if bind].
    destruct (aset ranges (nR + 1) _); auto. cbn [bind]. destruct (unguardedPartitionPivot _ _ _ _ _) as [[c s']| |]; auto. cbn [bind].
    destruct (aset _ nR c); auto. cbn [bind]. apply IH. }
  intros V W lt tv tw mx a p b q n.
  unfold d_dualSort, dualSort_with, d_makeSorted, makeSorted_with, d_sort_with, sort_with, d_introsortLoop, introsortLoop.
  split; (destruct (INTROSORT_THRESHOLD <? n); auto; destruct (aset (repeat 0 (mx + 1)) 0 0); auto; cbn [bind]; destruct (aset _ 1 n); auto; cbn [bind]; rewrite L; reflexivity).
Qed.
Print Assumptions C94_release.

Example C94_case :
  d_makeSorted true false MAX_RANGES Nat.ltb (stored [Raw] (scrambled 101) [Raw]) 1 101 = Ok (stored [Raw] (seq 0 101) [Raw]) /\
  d_dualSort true false true MAX_RANGES Nat.ltb (stored [Raw] [5;3;9;3;1] []) 1 (stored [] [50;30;90;31;10] [Hollow]) 0 5 =
    Ok (stored [Raw] [1;3;3;5;9] [], stored [] [10;30;31;50;90] [Hollow]) /\
  d_makeSorted true true 1 Nat.ltb (map (@Obj nat) (scrambled 101)) 0 101 = Abort.
Proof. split; [ vm_compute; reflexivity | ]. split; vm_compute; reflexivity. Qed.
