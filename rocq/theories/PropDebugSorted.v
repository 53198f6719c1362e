(** C88: SortedArray in a debug build. *)
From Coq Require Import List Arith ZArith Lia Bool Sorting.Sorted.
From Verif Require Import Base Mem BufferManip Debug Sorted SortedSpec SortedArray SortedArraySpec DebugSorted.
From Verif Require DebugProofs SortedProofs SortedArrayProofs DebugSortedProofs.
Import ListNotations.
Set Implicit Arguments.

(** As long as the ranges are sorted and unique no assertion fails: calls, searches and destructor end as without them. *)
Theorem C88_allowed : forall V (lt eqb : V -> V -> bool) (dflt : V) dbg chk triv, total_order lt eqb ->
  forall h, Forall (allowed lt) h ->
  ds_run dbg chk triv BMalloc lt eqb dflt h (new_s V BMalloc) = srun chk triv BMalloc lt eqb dflt h (new_s V BMalloc) /\
  exists a rs, srun chk triv BMalloc lt eqb dflt h (new_s V BMalloc) = Ok (a, rs) /\
    (forall v, ds_contains dbg BMalloc lt eqb a v = s_contains lt eqb a v) /\
    (forall v, exists r, ds_contains dbg BMalloc lt eqb a v = Ok r /\ (r = true <-> set_of h v)) /\
    ds_dtor dbg chk triv BMalloc a = Ok tt.
Proof.
  intros V lt eqb dflt dbg chk triv T h F.
  split; [ exact (@DebugSortedProofs.d_srun_ok V dbg chk triv lt eqb dflt T h _ _ (SortedArrayProofs.new_s_ok triv lt) F) | ].
  destruct (@SortedArrayProofs.srun_ok V chk triv lt eqb dflt T h (new_s V BMalloc) [] (SortedArrayProofs.new_s_ok triv lt) F)
    as ([a rs] & E & l & (H & Hs & I) & Hl & _). cbn [fst snd] in *.
  exists a, rs. split; [ exact E | ].
  assert (Q : forall v, ds_contains dbg BMalloc lt eqb a v = s_contains lt eqb a v).
  { intros v. unfold ds_contains, s_contains. rewrite Hs. apply (DebugSortedProofs.d_contains_eq dbg BMalloc T); [ | exact I ].
    apply (@DebugSortedProofs.holds_view V triv). exact H. }
  split; [ exact Q | ]. split.
  - intros v. rewrite Q. exists (SortedProofs2.present eqb (fun x => x) l v). split.
    + unfold s_contains. rewrite Hs.
      eapply (@SortedProofs3.contains_ok V V triv lt eqb (fun x => x) T) with (p := []); auto.
      rewrite map_id. apply BufferManipProofs.holds_mem. exact H.
    + rewrite (SortedProofs2.present_in (fun x => x) T), map_id. apply Hl.
  - unfold ds_dtor. rewrite Hs. destruct (@BufferManipProofs.free_ok V chk triv BMalloc (s_buf a) l H) as (b & Eb & _).
    rewrite (@DebugProofs.i_free dbg chk BMalloc V triv _ _ _ Eb). reflexivity.
Qed.
Print Assumptions C88_allowed.

(** The first range that is not sorted or has duplicates aborts, whatever was called before and whatever follows. *)
Theorem C88_found : forall V (lt eqb : V -> V -> bool) (dflt : V) chk triv, total_order lt eqb ->
  forall h1 c h2, Forall (allowed lt) h1 -> ~ allowed lt c ->
  ds_run true chk triv BMalloc lt eqb dflt (h1 ++ c :: h2) (new_s V BMalloc) = Abort.
Proof.
  intros V lt eqb dflt chk triv T h1 c h2 F N.
  exact (@DebugSortedProofs.d_srun_abort V chk triv lt eqb dflt T h1 c h2 _ _ (SortedArrayProofs.new_s_ok triv lt) F N).
Qed.
Print Assumptions C88_found.

(** So every history is either carried out on a set or aborts. There is no undefined behaviour and no third outcome. *)
Theorem C88_set_or_abort : forall V (lt eqb : V -> V -> bool) (dflt : V) chk triv, total_order lt eqb ->
  forall h,
  (Forall (allowed lt) h /\ exists a rs, ds_run true chk triv BMalloc lt eqb dflt h (new_s V BMalloc) = Ok (a, rs) /\
     forall v, exists r, ds_contains true BMalloc lt eqb a v = Ok r /\ (r = true <-> set_of h v)) \/
  (~ Forall (allowed lt) h /\ ds_run true chk triv BMalloc lt eqb dflt h (new_s V BMalloc) = Abort).
Proof.
  intros V lt eqb dflt chk triv T h.
  assert (D : forall c : scall V, {allowed lt c} + {~ allowed lt c}).
  { assert (K : forall vs : list V, {increasing lt vs} + {~ increasing lt vs}).
    { intros vs. destruct (isSortedUnique lt vs) eqn:E; [ left; apply (SortedProofs.isSortedUnique_iff (to_swo T)); exact E | right; intros N ].
      apply (SortedProofs.isSortedUnique_iff (to_swo T)) in N. congruence. }
    intros [v|vs|v|vs| |n]; simpl; auto. }
  assert (S : Forall (allowed lt) h \/ exists h1 c h2, h = h1 ++ c :: h2 /\ Forall (allowed lt) h1 /\ ~ allowed lt c).
  { clear - D. induction h as [|c h [IH|(h1 & d & h2 & E & F & N)]]; [ left; constructor | | ].
    - destruct (D c); [ left; constructor; auto | right; exists [], c, h; repeat split; auto ].
    - destruct (D c); [ right; exists (c :: h1), d, h2; subst h; split; [ reflexivity | split; [ constructor; auto | exact N ] ]
                      | right; exists [], c, h; repeat split; auto ]. }
  destruct S as [F|(h1 & c & h2 & -> & F & N)].
  - left. split; [ exact F | ]. destruct (C88_allowed dflt true chk triv T F) as (E & a & rs & E1 & _ & E2 & _).
    exists a, rs. split; [ rewrite E; exact E1 | exact E2 ].
  - right. split; [ | exact (@C88_found V lt eqb dflt chk triv T h1 c h2 F N) ]. intros G. apply Forall_app in G. destruct G as [_ G]. inversion G. contradiction.
Qed.
Print Assumptions C88_set_or_abort.

(** Without the assertions the same mistakes go unnoticed: the array is left unsorted, or an element cannot be found. *)
Theorem C88_release_refuted : exists (h : list (scall nat)) a rs,
  srun true true BMalloc Nat.ltb Nat.eqb 0 h (new_s nat BMalloc) = Ok (a, rs) /\ set_of h 1 /\
  s_contains Nat.ltb Nat.eqb a 1 = Ok false /\
  ds_run true true true BMalloc Nat.ltb Nat.eqb 0 h (new_s nat BMalloc) = Abort.
Proof.
  exists [SInsertRange [5; 3; 1]].
  destruct (srun true true BMalloc Nat.ltb Nat.eqb 0 [SInsertRange [5; 3; 1]] (new_s nat BMalloc)) as [[a rs]| |] eqn:E; [ | discriminate | discriminate ].
  exists a, rs. split; [ reflexivity | ]. vm_compute in E. injection E as <- <-.
  split; [ left; simpl; auto | ]. split; [ vm_compute; reflexivity | vm_compute; reflexivity ].
Qed.
Print Assumptions C88_release_refuted.

Example C88_case :
  ds_run true true false BMalloc Nat.ltb Nat.eqb 0 [SInsertRange [2; 4; 7]; SInsertRange [1; 4; 9]; SRemoveRange [2; 3; 7]; SRemove 4; SInsert 5] (new_s nat BMalloc)
    = srun true false BMalloc Nat.ltb Nat.eqb 0 [SInsertRange [2; 4; 7]; SInsertRange [1; 4; 9]; SRemoveRange [2; 3; 7]; SRemove 4; SInsert 5] (new_s nat BMalloc) /\
  ds_run true true false BMalloc Nat.ltb Nat.eqb 0 [SInsertRange [2; 4; 7]; SRemoveRange [2; 2]; SInsert 5] (new_s nat BMalloc) = Abort.
Proof. split; vm_compute; reflexivity. Qed.
