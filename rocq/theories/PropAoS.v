(** Properties of ArrayOfSets (C28, C29): the theorems and their non-vacuity examples. *)
From Coq Require Import List Arith ZArith Lia Bool.
From Verif Require Import Base BaseProofs Mem BufferManip SortedSpec SortedArraySpec AoA AoASpec AoS AoSSpec.
From Verif Require AoALayout AoAProofs AoAProofs4 SetsProofs SetsProofs2 AoSProofs AoSProofs2 PropAoA SortedProofs Introsort.
Import ListNotations.
Set Implicit Arguments.

(** ArrayOfSets< T > a( n0, cap0 ), then the calls of [h]. *)
Definition tdriven {V} (chk tv : bool) (lt eqb : V -> V -> bool) (dflt : V) (n0 cap0 : nat) (h : list (tcall V)) : outcome (aoa V unit) :=
  a <- new_aoa V unit chk tv true false BMalloc n0 cap0 ;; trun chk tv true false BMalloc lt eqb dflt h a.

(** All the user can read: size(), and for each set its size, its increasing values and contains(). *)
Definition shows {V} (chk : bool) (lt eqb : V -> V -> bool) (a : aoa V unit) (M : list (V -> Prop)) : Prop :=
  numArrays a = length M /\
  forall i S, nth_error M i = Some S ->
    exists l, is_set lt l S /\ sizeOfArray chk a i = Ok (length l) /\
      (forall j v, nth_error l j = Some v -> aoa_at chk a i j = Ok v) /\
      (forall v, exists b, aos_contains chk lt eqb a i v = Ok b /\ (b = true <-> S v)).

Section Help.
Variable V : Type.
Variable lt eqb : V -> V -> bool.
Hypothesis T : total_order lt eqb.
Notation rep tv := (@SetsProofs2.rep V V unit (fun v : V => v) (fun _ => tt) tv true false lt).

Lemma tdriven_rep chk tv dflt n0 cap0 h : Forall (tallowed lt) h ->
  match set_run lt h (repeat none n0) with
  | Some M => AoALayout.okb tv (tdriven chk tv lt eqb dflt n0 cap0 h) (fun a => rep tv a M)
  | None => chk = true -> AoAProofs4.badb tv (tdriven chk tv lt eqb dflt n0 cap0 h)
  end.
Proof.
  intros F. unfold tdriven.
  destruct (@SetsProofs2.new_rep V V unit (fun v => v) (fun _ => tt) chk tv true false lt n0 cap0) as (a & -> & R). cbn [bind].
  apply AoSProofs.trun_ok; auto.
Qed.
Lemma rep_shows chk tv a M : rep tv a M -> shows chk lt eqb a M.
Proof.
  intros R. split; [exact (SetsProofs2.rep_num R)|]. intros i S N. pose proof R as (L & H & F).
  destruct (SetsProofs2.f2_at F N) as (A & r & k & B & E & <- & [I Rs] & _). simpl in *. exists r. split; [|split; [|split]].
  - split; auto. apply (SortedProofs.increasing_strong lt). exact I.
  - pose proof H as [Ia _]. rewrite E in Ia. exact (SetsProofs.row_size chk Ia).
  - intros j v J. eapply (@AoAProofs4.rep_at V unit chk tv true (fun _ => tt) a (map fst L) (map (@AoALayout.wid V) L)); [|  |exact J].
    + exists L. auto.
    + rewrite E, map_app. rewrite nth_error_app2 by (rewrite map_length; auto). rewrite map_length, Nat.sub_diag. reflexivity.
  - intros v. destruct (SetsProofs2.rep_contains chk T v R N) as (b & Eb & Hb). exists b. split; auto. rewrite Hb.
    split; [intros (x & Hx & <-); auto|intros Sv; exists v; auto].
Qed.
End Help.

(** C28: a trivially copyable T; every valid history ends normally and shows the vector of sets. *)
Theorem C28_vector_of_sets : forall V (lt eqb : V -> V -> bool) (dflt : V) chk n0 cap0 h M, total_order lt eqb ->
  Forall (tallowed lt) h -> set_run lt h (repeat none n0) = Some M ->
  exists a, tdriven chk true lt eqb dflt n0 cap0 h = Ok a /\ shows chk lt eqb a M.
Proof.
  intros V lt eqb dflt chk n0 cap0 h M T F H. pose proof (tdriven_rep T chk true dflt n0 cap0 F) as D. rewrite H in D.
  destruct D as [(a & E & R)|[Tf _]]; [|discriminate]. exists a. split; [exact E|]. exact (rep_shows T chk R).
Qed.
Print Assumptions C28_vector_of_sets.

(** The value returned by the next call is the change of the number of elements. *)
Theorem C28_returns : forall V (lt eqb : V -> V -> bool) (dflt : V) chk tv n0 cap0 h M c M' a a' r, total_order lt eqb ->
  Forall (tallowed lt) (h ++ [c]) -> set_run lt h (repeat none n0) = Some M -> set_step lt c M = Some M' ->
  tdriven chk tv lt eqb dflt n0 cap0 h = Ok a -> tstep chk tv true false BMalloc lt eqb dflt c a = Ok (a', r) ->
  treturns c M M' r /\ shows chk lt eqb a' M'.
Proof.
  intros V lt eqb dflt chk tv n0 cap0 h M c M' a a' r T F H Hc E Ec. apply Forall_app in F. destruct F as [F Fc].
  pose proof (tdriven_rep T chk tv dflt n0 cap0 F) as D. rewrite H in D.
  destruct D as [(a0 & E0 & R)|[Tf E0]]; rewrite E in E0; [|discriminate]. injection E0 as <-.
  pose proof (@AoSProofs.tstep_ok V unit (fun _ => tt) chk tv true lt eqb T dflt c a M R (Forall_inv Fc)) as St. rewrite Hc in St.
  destruct St as [([a1 r1] & E1 & R1 & Rt)|[Tf E1]]; rewrite Ec in E1; [|discriminate]. injection E1 as <- <-.
  split; [exact Rt|exact (rep_shows T chk R1)].
Qed.
Print Assumptions C28_returns.

(** With LVARRAY_BOUNDS_CHECK a history with an invalid index ends in the error handler. *)
Theorem C28_invalid_aborts : forall V (lt eqb : V -> V -> bool) (dflt : V) n0 cap0 h, total_order lt eqb ->
  Forall (tallowed lt) h -> set_run lt h (repeat none n0) = None -> tdriven true true lt eqb dflt n0 cap0 h = Abort.
Proof.
  intros V lt eqb dflt n0 cap0 h T F H. pose proof (tdriven_rep T true true dflt n0 cap0 F) as D. rewrite H in D.
  destruct (D eq_refl) as [E|[Tf _]]; [exact E|discriminate].
Qed.
Print Assumptions C28_invalid_aborts.

(** T with observable lifetimes: each element constructed once and destroyed once, or the violation of C24. *)
Theorem C28_lifetimes : forall V (lt eqb : V -> V -> bool) (dflt : V) chk tv n0 cap0 h M, total_order lt eqb ->
  Forall (tallowed lt) h -> set_run lt h (repeat none n0) = Some M ->
  (exists a, tdriven chk tv lt eqb dflt n0 cap0 h = Ok a /\ shows chk lt eqb a M /\ aoa_dtor chk tv true false BMalloc a = Ok tt) \/
  (tv = false /\ tdriven chk tv lt eqb dflt n0 cap0 h = Fault FMove).
Proof.
  intros V lt eqb dflt chk tv n0 cap0 h M T F H. pose proof (tdriven_rep T chk tv dflt n0 cap0 F) as D. rewrite H in D.
  destruct D as [(a & E & R)|[Tf E]]; [|right; auto].
  left. exists a. split; [exact E|]. split; [exact (rep_shows T chk R)|exact (SetsProofs2.rep_dtor chk R)].
Qed.
Print Assumptions C28_lifetimes.

(** Insertion through a view, which cannot grow a set: the same as long as the capacity suffices, and the
    error handler otherwise (with LVARRAY_BOUNDS_CHECK). *)
Definition with_value {V} (v : V) (S : V -> Prop) : V -> Prop := fun x => x = v \/ S x.
Lemma with_sum V (v : V) S m : cardinal (with_value v S) m <-> cardinal (AoSProofs.sum_set S [v]) m.
Proof.
  unfold cardinal, with_value, AoSProofs.sum_set. simpl.
  split; intros (l & N & H & E); exists l; repeat split; auto; intros; try (apply H in H0); try apply H; intuition.
Qed.
Theorem C28_view_insert : forall V (lt eqb : V -> V -> bool) (dflt : V) chk tv n0 cap0 h M a i S v c m, total_order lt eqb ->
  Forall (tallowed lt) h -> set_run lt h (repeat none n0) = Some M -> tdriven chk tv lt eqb dflt n0 cap0 h = Ok a ->
  nth_error M i = Some S -> capacityOfArray chk a i = Ok c -> cardinal (with_value v S) m ->
  (m <= c -> exists a' r, v_insertIntoSet chk tv lt eqb a i v = Ok (a', r) /\ shows chk lt eqb a' (put_at M i (with_value v S)) /\
                (forall n, cardinal S n -> m = n + flag r) /\ capacityOfArray chk a' i = Ok c) /\
  (c < m -> chk = true -> v_insertIntoSet chk tv lt eqb a i v = Abort).
Proof.
  intros V lt eqb dflt chk tv n0 cap0 h M a i S v c m T F H E N Ec Cm.
  pose proof (tdriven_rep T chk tv dflt n0 cap0 F) as D. rewrite H in D.
  destruct D as [(a0 & E0 & R)|[Tf E0]]; rewrite E in E0; [|discriminate]. injection E0 as <-.
  apply with_sum in Cm. split.
  - intros Le. destruct (@AoSProofs.view_insert V unit (fun _ => tt) chk tv true lt eqb T a M i S v c R N Ec) as ([a' r] & E' & R' & Pl & Ec').
    + intros m' C'. destruct C' as (l & Nd & Hl & <-). destruct Cm as (l2 & Nd2 & Hl2 & <-).
      apply Nat.le_trans with (length l2); auto. apply NoDup_incl_length; auto. intros x Hx. apply Hl2, Hl. auto.
    + exists a', r. split; [exact E'|]. cbn [fst snd] in *. split; [|split; auto].
      eapply rep_shows; [exact T|]. eapply AoSProofs.rep_cast; [exact R'|]. apply AoSProofs.put_ext.
      unfold AoSProofs.sum_set, with_value. simpl. intros x. intuition.
  - intros Lt ->. eapply (@AoSProofs2.view_full V unit (fun _ => tt)); eauto.
Qed.
Print Assumptions C28_view_insert.

Definition ht : list (tcall nat) :=
  [TInsert 0 5; TInserts 1 [2; 4; 6]; TInsert 0 3; TInsert 0 5; TAppendSet 1; TInsertSet 1 2; TInserts 1 [7; 9]; TRemoves 2 [1; 4; 5];
   TRemove 0 5; TInsert 0 1; TInsert 3 8; TCompress; TInsert 2 3; TSetCapacity 2 2; TReserveCapacity 0 6; TEraseSet 3].
Example C28_case :
  (exists M, set_run Nat.ltb ht (repeat none 2) = Some M /\ length M = 3 /\
     forall S, nth_error M 2 = Some S -> S 2 /\ ~ S 4) /\
  (a <- tdriven true false Nat.ltb Nat.eqb 0 2 1 [TInsert 0 5; TInsert 1 4; TInsert 1 3; TInserts 0 [2; 5; 6]] ;;
   s0 <- sizeOfArray true a 0 ;; x <- aoa_at true a 1 0 ;; Ok (s0, x)) = Ok (3, 3) /\
  (a <- tdriven true true Nat.ltb Nat.eqb 0 2 1 ht ;;
   s0 <- sizeOfArray true a 0 ;; s1 <- sizeOfArray true a 1 ;; s2 <- sizeOfArray true a 2 ;;
   x <- aoa_at true a 2 1 ;; b <- aos_contains true Nat.ltb Nat.eqb a 2 6 ;; Ok (numArrays a, s0, s1, s2, x, b)) = Ok (3, 2, 2, 2, 3, false).
Proof.
  split; [|vm_compute; auto]. eexists. split; [reflexivity|]. split; [reflexivity|].
  intros S E. cbn in E. injection E as <-. split.
  - unfold smallest. split; [right; split; [left; simpl; auto|simpl; lia]|]. exists 0. split; [lia|].
    exists []. split; [constructor|]. split; auto. intros x. simpl. split; [tauto|]. intros [H L]. apply Nat.leb_le in L.
    unfold none in H. lia.
  - unfold smallest. simpl. intuition lia.
Qed.

(** C29: [src] after any history of an ArrayOfArrays, [this] after any history of an ArrayOfSets, std::sort
    trusted to sort. *)
Theorem C29_assimilate : forall V (lt eqb : V -> V -> bool) (dflt : V) chk tv sort h0 n0 cap0 M0 this h1 n1 cap1 M src d, total_order lt eqb ->
  sorts lt sort ->
  Forall (tallowed lt) h0 -> set_run lt h0 (repeat none n0) = Some M0 -> tdriven chk tv lt eqb dflt n0 cap0 h0 = Ok this ->
  vec_run dflt h1 (repeat [] n1) = Some M -> PropAoA.driven chk tv dflt n1 cap1 h1 = Ok src ->
  Forall (truthful lt d) M ->
  exists a, aos_assimilate chk tv true false BMalloc lt dflt sort this src d = Ok a /\
    shows chk lt eqb a (map (fun r x => In x r) M).
Proof.
  intros V lt eqb dflt chk tv sort h0 n0 cap0 M0 this h1 n1 cap1 M src d T HS F H0 E0 H1 E1 Tr.
  pose proof (tdriven_rep T chk tv dflt n0 cap0 F) as D. rewrite H0 in D.
  destruct D as [(a0 & Ea & R)|[Tf Ea]]; rewrite E0 in Ea; [|discriminate]. injection Ea as <-. destruct R as (L0 & R0 & _).
  pose proof (PropAoA.driven_rep chk tv dflt n1 cap1 h1) as D. rewrite H1 in D.
  destruct D as [(a1 & Ea & R)|[Tf Ea]]; rewrite E1 in Ea; [|discriminate]. injection Ea as <-. destruct R as (L & R & <- & _).
  destruct (@AoSProofs2.assimilate_ok V unit (fun _ => tt) chk tv true lt eqb T dflt sort HS this src L d) as (a & E & Ra); auto.
  - exists L0. apply AoAProofs.aok_pok. exact R0.
  - exists a. split; [exact E|exact (rep_shows T chk Ra)].
Qed.
Print Assumptions C29_assimilate.

(** A sort with which the premise holds. *)
Fixpoint ins_sorted (v : nat) (l : list nat) : list nat :=
  match l with [] => [v] | x :: l' => if v <? x then v :: l else x :: ins_sorted v l' end.
Definition buffer_values (b : buf nat) : list nat := map (fun c => match c with Obj v => v | _ => 0 end) b.
Definition simple_sort (b : buf nat) (p n : nat) : outcome (buf nat) :=
  Ok (firstn p b ++ map Obj (fold_right ins_sorted [] (buffer_values (firstn n (skipn p b)))) ++ skipn (p + n) b).
Lemma simple_sorts : sorts Nat.ltb simple_sort.
Proof.
  intros p s l. exists (fold_right ins_sorted [] l). unfold simple_sort.
  assert (IP : forall v l, Permutation.Permutation (v :: l) (ins_sorted v l)).
  { intros v l0. induction l0 as [|x l0 IH]; simpl; auto. destruct (v <? x); auto.
    eapply Permutation.perm_trans; [apply Permutation.perm_swap|]. constructor. exact IH. }
  assert (IS : forall v l, Sorted.StronglySorted (fun x y => Nat.ltb y x = false) l -> Sorted.StronglySorted (fun x y => Nat.ltb y x = false) (ins_sorted v l)).
  { intros v l0 H. induction H as [|x l0 H IH F]; simpl; [repeat constructor|]. destruct (Nat.ltb_spec v x).
    - constructor; [constructor; auto|]. constructor; [apply Nat.ltb_ge; lia|].
      eapply Forall_impl; [|exact F]. intros y Hy. cbn in *. apply Nat.ltb_ge in Hy. apply Nat.ltb_ge. lia.
    - constructor; auto. apply Forall_forall. intros y Hy.
      apply (Permutation.Permutation_in _ (Permutation.Permutation_sym (IP v l0))) in Hy. destruct Hy as [<-|Hy]; [apply Nat.ltb_ge; lia|].
      rewrite Forall_forall in F. apply F; auto. }
  split; [|split].
  - f_equal. rewrite firstn_app_exact by auto. f_equal. f_equal.
    + f_equal. rewrite skipn_app_exact by auto. rewrite firstn_app_exact by (rewrite map_length; auto).
      unfold buffer_values. rewrite map_map, map_id. reflexivity.
    + rewrite app_assoc. apply skipn_app_exact. rewrite app_length, map_length. auto.
  - induction l as [|v l IH]; simpl; auto. eapply Permutation.perm_trans; [constructor; exact IH|apply IP].
  - apply SortedProofs.sorted_strong. induction l; simpl; [constructor|]. apply IS. exact IHl.
Qed.
Example C29_case : sorts Nat.ltb simple_sort /\
  (this <- tdriven true false Nat.ltb Nat.eqb 0 1 0 [TInsert 0 5] ;;
   src <- PropAoA.driven true false 0 2 0 [AResizeArray 0 1 7; AResizeArray 1 2 8; AEmplaceBack 0 4; AEmplaceBack 0 7] ;;
   a <- aos_assimilate true false true false BMalloc Nat.ltb 0 simple_sort this src UnsortedWithDuplicates ;;
   s0 <- sizeOfArray true a 0 ;; s1 <- sizeOfArray true a 1 ;; x <- aoa_at true a 0 0 ;; y <- aoa_at true a 0 1 ;; Ok (s0, s1, x, y)) = Ok (2, 1, 4, 7).
Proof. split; [exact simple_sorts|]. vm_compute. reflexivity. Qed.
