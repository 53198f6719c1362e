(** C90: ArrayOfSets in a debug build. *)
From Coq Require Import List Arith ZArith Lia Bool.
From Verif Require Import Base BaseProofs Mem BufferManip SortedSpec SortedArraySpec Debug AoA AoASpec AoS AoSSpec PropAoS DebugSorted DebugSets.
From Verif Require AoALayout AoAProofs SetsProofs2 AoSProofs SortedProofs DebugProofs DebugProofs2 DebugSortedProofs DebugSetsProofs PropAoA.
Import ListNotations.
Set Implicit Arguments.

(** ArrayOfSets< T > a( n0, cap0 ), then the calls of [h], in a debug build. *)
Definition d_tdriven {V} (dbg chk tv : bool) (lt eqb : V -> V -> bool) (dflt : V) (n0 cap0 : nat) (h : list (tcall V)) : outcome (aoa V unit) :=
  a <- g_new_aoa dbg chk BMalloc V unit tv true false n0 cap0 ;; d_trun dbg chk tv true false BMalloc lt eqb dflt h a.

(** A valid history which ends normally ends with the same array, all its sets can be searched and it can be destroyed. For a trivially
    copyable T every valid history does (C28). *)
Theorem C90_allowed : forall V (lt eqb : V -> V -> bool) (dflt : V) dbg chk tv n0 cap0 h M a, total_order lt eqb ->
  Forall (tallowed lt) h -> set_run lt h (repeat none n0) = Some M -> tdriven chk tv lt eqb dflt n0 cap0 h = Ok a ->
  d_tdriven dbg chk tv lt eqb dflt n0 cap0 h = Ok a /\ shows chk lt eqb a M /\
  (forall i S v, nth_error M i = Some S -> d_aos_contains dbg chk BMalloc lt eqb a i v = aos_contains chk lt eqb a i v) /\
  g_aoa_dtor dbg chk BMalloc tv true false a = Ok tt.
Proof.
  intros V lt eqb dflt dbg chk tv n0 cap0 h M a T F H E.
  pose proof (tdriven_rep T chk tv dflt n0 cap0 F) as D. rewrite H in D. pose proof (DebugProofs2.okb_get D E) as R.
  split; [ | split; [ exact (rep_shows T chk R) | split ] ].
  - revert a E R. fold (DebugProofs.imp (tdriven chk tv lt eqb dflt n0 cap0 h) (d_tdriven dbg chk tv lt eqb dflt n0 cap0 h)).
    enough (I : DebugProofs.imp (tdriven chk tv lt eqb dflt n0 cap0 h) (d_tdriven dbg chk tv lt eqb dflt n0 cap0 h)) by (intros a E _; exact (I a E)).
    unfold tdriven, d_tdriven. apply DebugProofs.imp_bind; [ unfold new_aoa, g_new_aoa; apply DebugProofs2.g_resizeImpl_i | ]. intros a0 E0.
    destruct (@SetsProofs2.new_rep V V unit (fun v => v) (fun _ => tt) chk tv true false lt n0 cap0) as (a1 & E1 & R). rewrite E1 in E0. injection E0 as <-.
    exact (@DebugSetsProofs.d_trun_imp V unit (fun _ => tt) dbg chk tv true lt eqb T dflt h a1 _ M R F H).
  - intros i S v N. destruct (@DebugSetsProofs.seen V unit (fun _ => tt) chk tv true lt a M i S R N) as (A & r & k & B & _ & _ & I & E1 & E2 & E3 & Vw).
    unfold d_aos_contains, aos_contains. rewrite E1, E2, E3. cbn [bind]. exact (DebugSortedProofs.d_contains_eq dbg BMalloc T v Vw I).
  - pose proof (SetsProofs2.rep_dtor chk R) as Ed. revert Ed.
    enough (I : DebugProofs.imp (aoa_dtor chk tv true false BMalloc a) (g_aoa_dtor dbg chk BMalloc tv true false a)) by apply I.
    unfold aoa_dtor, g_aoa_dtor. apply DebugProofs.imp_bind; [ apply DebugProofs2.g_free_i | intros; apply DebugProofs.imp_refl ].
Qed.
Print Assumptions C90_allowed.

(** With bounds checks, every history with arbitrary indices and ranges is carried out as on a vector of sets or aborts. *)
Theorem C90_sets_or_abort : forall V (lt eqb : V -> V -> bool) (dflt : V) n0 cap0 h, total_order lt eqb ->
  (Forall (tallowed lt) h /\ exists M a, set_run lt h (repeat none n0) = Some M /\ d_tdriven true true true lt eqb dflt n0 cap0 h = Ok a /\ shows true lt eqb a M) \/
  ((~ Forall (tallowed lt) h \/ set_run lt h (repeat none n0) = None) /\ d_tdriven true true true lt eqb dflt n0 cap0 h = Abort).
Proof.
  intros V lt eqb dflt n0 cap0 h T.
  destruct (@SetsProofs2.new_rep V V unit (fun v => v) (fun _ => tt) true true true false lt n0 cap0) as (a1 & E1 & R).
  unfold d_tdriven, g_new_aoa. unfold new_aoa in E1. rewrite (@DebugProofs2.g_resizeImpl_i V unit true true true true _ _ _ _ E1). cbn [bind].
  pose proof (@DebugSetsProofs.d_trun_total V unit (fun _ => tt) true lt eqb T dflt h a1 _ R) as D.
  destruct (forallb _ h) eqn:F.
  - assert (Al : Forall (tallowed lt) h).
    { apply Forall_forall. intros c Hc. rewrite forallb_forall in F. specialize (F c Hc). destruct (DebugSetsProofs.allowed_dec T c); [ assumption | discriminate ]. }
    destruct (set_run lt h (repeat none n0)) as [M|]; [ | right; split; [ right; reflexivity | exact D ] ].
    left. split; [ exact Al | ]. destruct D as (a & E & Ra). exists M, a. split; [ reflexivity | ]. split; [ exact E | exact (rep_shows T true Ra) ].
  - right. split; [ left | exact D ]. intros Al. rewrite Forall_forall in Al.
    assert (K : forallb (fun c => if DebugSetsProofs.allowed_dec T c then true else false) h = true).
    { apply forallb_forall. intros c Hc. destruct (DebugSetsProofs.allowed_dec T c) as [|N]; [ reflexivity | destruct N; exact (Al c Hc) ]. }
    congruence.
Qed.
Print Assumptions C90_sets_or_abort.

(** assimilate with a true description does what it does without assertions (C29). *)
Theorem C90_assimilate : forall V (lt eqb : V -> V -> bool) (dflt : V) dbg chk tv sort h0 n0 cap0 M0 this h1 n1 cap1 M src d, total_order lt eqb ->
  sorts lt sort ->
  Forall (tallowed lt) h0 -> set_run lt h0 (repeat none n0) = Some M0 -> tdriven chk tv lt eqb dflt n0 cap0 h0 = Ok this ->
  vec_run dflt h1 (repeat [] n1) = Some M -> PropAoA.driven chk tv dflt n1 cap1 h1 = Ok src ->
  Forall (truthful lt d) M ->
  exists a, d_aos_assimilate dbg chk tv true false BMalloc lt dflt sort this src d = Ok a /\
    aos_assimilate chk tv true false BMalloc lt dflt sort this src d = Ok a /\
    shows chk lt eqb a (map (fun r x => In x r) M).
Proof.
  intros V lt eqb dflt dbg chk tv sort h0 n0 cap0 M0 this h1 n1 cap1 M src d T HS F H0 E0 H1 E1 Tr.
  destruct (@C29_assimilate V lt eqb dflt chk tv sort h0 n0 cap0 M0 this h1 n1 cap1 M src d T HS F H0 E0 H1 E1 Tr) as (a & E & Sh).
  exists a. split; [ | split; assumption ]. rewrite <- E.
  pose proof (tdriven_rep T chk tv dflt n0 cap0 F) as D. rewrite H0 in D. destruct (DebugProofs2.okb_get D E0) as (L0 & R0 & _).
  pose proof (PropAoA.driven_rep chk tv dflt n1 cap1 h1) as D1. rewrite H1 in D1. destruct (DebugProofs2.okb_get D1 E1) as (L & R & <- & _).
  apply (@DebugSetsProofs.d_assimilate_eq V unit (fun _ => tt) dbg chk tv true lt eqb T dflt sort HS this src L d); auto.
  exists L0. apply AoAProofs.aok_pok. exact R0.
Qed.
Print Assumptions C90_assimilate.

(** The description SORTED_WITH_DUPLICATES is checked. *)
Theorem C90_assimilate_found : forall V (lt eqb : V -> V -> bool) (dflt : V) chk tv sort h0 n0 cap0 M0 this h1 n1 cap1 M src, total_order lt eqb ->
  sorts lt sort ->
  Forall (tallowed lt) h0 -> set_run lt h0 (repeat none n0) = Some M0 -> tdriven chk tv lt eqb dflt n0 cap0 h0 = Ok this ->
  vec_run dflt h1 (repeat [] n1) = Some M -> PropAoA.driven chk tv dflt n1 cap1 h1 = Ok src ->
  ~ Forall (truthful lt SortedWithDuplicates) M ->
  d_aos_assimilate true chk tv true false BMalloc lt dflt sort this src SortedWithDuplicates = Abort.
Proof.
  intros V lt eqb dflt chk tv sort h0 n0 cap0 M0 this h1 n1 cap1 M src T HS F H0 E0 H1 E1 Tr.
  pose proof (tdriven_rep T chk tv dflt n0 cap0 F) as D. rewrite H0 in D. destruct (DebugProofs2.okb_get D E0) as (L0 & R0 & _).
  pose proof (PropAoA.driven_rep chk tv dflt n1 cap1 h1) as D1. rewrite H1 in D1. destruct (DebugProofs2.okb_get D1 E1) as (L & R & <- & _).
  apply (@DebugSetsProofs.d_assimilate_bad V unit (fun _ => tt) chk tv true lt eqb T dflt sort HS this src L); auto.
  exists L0. apply AoAProofs.aok_pok. exact R0.
Qed.
Print Assumptions C90_assimilate_found.

(** The other two are not: a debug build with bounds checks takes over an unsorted array, and one with duplicates. contains() then aborts,
    or removeFromSet leaves the value in the set. *)
Theorem C90_assimilate_refuted :
  (exists this src a, tdriven true true Nat.ltb Nat.eqb 0 1 0 [] = Ok this /\
     PropAoA.driven true true 0 1 0 [AEmplaceBack 0 7; AEmplaceBack 0 4] = Ok src /\
     d_aos_assimilate true true true true false BMalloc Nat.ltb 0 simple_sort this src SortedUnique = Ok a /\
     aoa_at true a 0 0 = Ok 7 /\ aoa_at true a 0 1 = Ok 4 /\ d_aos_contains true true BMalloc Nat.ltb Nat.eqb a 0 7 = Abort) /\
  (exists this src a a', tdriven true true Nat.ltb Nat.eqb 0 1 0 [] = Ok this /\
     PropAoA.driven true true 0 1 0 [AEmplaceBack 0 7; AEmplaceBack 0 7] = Ok src /\
     d_aos_assimilate true true true true false BMalloc Nat.ltb 0 simple_sort this src UnsortedNoDuplicates = Ok a /\
     d_removeFromSet true true true BMalloc Nat.ltb Nat.eqb a 0 7 = Ok (a', true) /\
     d_aos_contains true true BMalloc Nat.ltb Nat.eqb a' 0 7 = Ok true).
Proof.
  split.
  - eexists. eexists. eexists. split; [vm_compute; reflexivity|]. split; [vm_compute; reflexivity|]. split; [vm_compute; reflexivity|].
    split; [vm_compute; reflexivity|]. split; vm_compute; reflexivity.
  - eexists. eexists. eexists. eexists. split; [vm_compute; reflexivity|]. split; [vm_compute; reflexivity|]. split; [vm_compute; reflexivity|].
    split; vm_compute; reflexivity.
Qed.
Print Assumptions C90_assimilate_refuted.

Definition sets_history : list (tcall nat) := [TInserts 0 [2; 4; 7]; TAppendSet 1; TInserts 0 [1; 4; 9]; TRemoves 0 [2; 3; 7]; TInsert 2 5; TEraseSet 1; TRemove 0 4; TCompress].
Example C90_case :
  Forall (tallowed Nat.ltb) sets_history /\
  (exists a, d_tdriven true true false Nat.ltb Nat.eqb 0 2 0 sets_history = Ok a /\ tdriven true false Nat.ltb Nat.eqb 0 2 0 sets_history = Ok a /\
     sizeOfArray true a 0 = Ok 2 /\ aoa_at true a 1 0 = Ok 5) /\
  d_tdriven true true true Nat.ltb Nat.eqb 0 2 0 [TInserts 0 [4; 2]] = Abort /\
  d_tdriven true true true Nat.ltb Nat.eqb 0 2 0 [TInserts 2 [2; 4]] = Abort /\
  (this <- tdriven true false Nat.ltb Nat.eqb 0 1 0 [TInsert 0 5] ;;
   src <- PropAoA.driven true false 0 2 0 [AEmplaceBack 0 1; AEmplaceBack 0 1; AEmplaceBack 1 7; AEmplaceBack 1 4] ;;
   d_aos_assimilate true true false true false BMalloc Nat.ltb 0 simple_sort this src SortedWithDuplicates) = Abort.
Proof.
  split.
  - repeat constructor; simpl; try exact Logic.I; apply SortedProofs.increasing_strong; repeat constructor.
  - split; [ eexists; split; [vm_compute; reflexivity|split; [vm_compute; reflexivity|split; vm_compute; reflexivity]] | ].
    split; [vm_compute; reflexivity|]. split; vm_compute; reflexivity.
Qed.
