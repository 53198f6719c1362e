(** Properties of ArrayOfArrays (C22 - C26, C56): the theorems and their non-vacuity examples. *)
From Coq Require Import List Arith ZArith Lia Bool.
From Verif Require Import Base BaseProofs Mem BufferManip AoA AoASpec.
From Verif Require AoALayout AoAProofs AoAProofs2 AoAProofs3 AoAProofs4.
Import ListNotations.
Set Implicit Arguments.

(** ArrayOfArrays< T > a( n0, cap0 ), then the calls of [h]. *)
Definition driven {V} (chk tv : bool) (dflt : V) (n0 cap0 : nat) (h : list (acall V)) : outcome (aoa V unit) :=
  a <- new_aoa V unit chk tv true false BMalloc n0 cap0 ;; arun chk tv true false BMalloc dflt h a.

(** All the user can read: size(), sizeOfArray( i ), a( i, j ). *)
Definition displays {V} (chk : bool) (a : aoa V unit) (M : list (list V)) : Prop :=
  numArrays a = length M /\
  (forall i r, nth_error M i = Some r -> sizeOfArray chk a i = Ok (length r)) /\
  (forall i r j v, nth_error M i = Some r -> nth_error r j = Some v -> aoa_at chk a i j = Ok v).

Section Help.
Variable V : Type.
Notation arep := (@AoAProofs4.arep V unit).
Notation fu := (fun _ : V => tt).

Lemma driven_rep chk tv (dflt : V) n0 cap0 h :
  match vec_run dflt h (repeat [] n0) with
  | Some M => AoALayout.okb (tv || always_full dflt h (repeat [] n0) (repeat cap0 n0)) (driven chk tv dflt n0 cap0 h)
      (fun a => arep tv true fu a M (cap_run dflt h (repeat [] n0) (repeat cap0 n0)))
  | None => chk = true -> AoAProofs4.badb (tv || always_full dflt h (repeat [] n0) (repeat cap0 n0)) (driven chk tv dflt n0 cap0 h)
  end.
Proof.
  unfold driven. destruct (@AoAProofs4.new_ok V unit chk tv true fu n0 cap0) as (a & -> & R). cbn [bind].
  apply AoAProofs4.run_ok. exact R.
Qed.
Lemma rep_displays chk tv a M K : arep tv true fu a M K -> displays chk a M.
Proof.
  intros R. split; [exact (AoAProofs4.rep_num R)|split].
  - intros i r N. exact (AoAProofs4.rep_size chk R N).
  - intros i r j v N J. exact (AoAProofs4.rep_at chk R N J).
Qed.
End Help.

(** C22: a trivially copyable T; every valid history ends normally and shows the vector of vectors. *)
Theorem C22_vector_of_vectors : forall V (dflt : V) chk n0 cap0 h M,
  vec_run dflt h (repeat [] n0) = Some M ->
  exists a, driven chk true dflt n0 cap0 h = Ok a /\ displays chk a M.
Proof.
  intros V dflt chk n0 cap0 h M H. pose proof (driven_rep chk true dflt n0 cap0 h) as D. rewrite H in D.
  destruct D as [(a & E & R)|[T _]]; [|discriminate]. exists a. split; [exact E|]. exact (rep_displays chk R).
Qed.
Print Assumptions C22_vector_of_vectors.

(** With LVARRAY_BOUNDS_CHECK a history with an invalid index ends in the error handler, and so do reads
    outside the arrays. *)
Theorem C22_invalid_aborts : forall V (dflt : V) n0 cap0 h,
  vec_run dflt h (repeat [] n0) = None -> driven true true dflt n0 cap0 h = Abort.
Proof.
  intros V dflt n0 cap0 h H. pose proof (driven_rep true true dflt n0 cap0 h) as D. rewrite H in D.
  destruct (D eq_refl) as [E|[T _]]; [exact E|discriminate].
Qed.
Print Assumptions C22_invalid_aborts.

Theorem C22_invalid_reads_abort : forall V (dflt : V) n0 cap0 h M a i j,
  vec_run dflt h (repeat [] n0) = Some M -> driven true true dflt n0 cap0 h = Ok a ->
  (forall r, nth_error M i = Some r -> nth_error r j = None) -> aoa_at true a i j = Abort.
Proof.
  intros V dflt n0 cap0 h M a i j H E N. pose proof (driven_rep true true dflt n0 cap0 h) as D. rewrite H in D.
  destruct D as [(a' & E' & R)|[T _]]; [|discriminate]. rewrite E in E'. injection E' as <-.
  destruct R as (L & K & <- & _). unfold aoa_at, slot. destruct (nth_error (map fst L) i) as [r|] eqn:Er.
  - specialize (N _ eq_refl). apply nth_error_None in N. destruct (AoAProofs4.row_at Er) as (A & k & B & -> & <-).
    destruct K as [I _]. rewrite (AoAProofs4.check2_bad2 eq_refl I N). reflexivity.
  - apply nth_error_None in Er. rewrite map_length in Er. destruct K as [I _].
    rewrite (AoAProofs4.check2_bad1 _ eq_refl I Er). reflexivity.
Qed.
Print Assumptions C22_invalid_reads_abort.

Definition h1 : list (acall nat) :=
  [AEmplaceBack 0 1; AEmplaceBack 1 2; AAppendTo 0 [3; 4; 5]; AInsertArray 1 [7; 8]; AEmplace 0 1 9; AEraseFrom 0 2 2;
   AAppend 2; ACompress; AInsertInto 2 0 [6; 6]; AResizeArray 1 4 5; ASetCapacity 0 2; AEraseArray 3; AAppendFrom [1; 1]; ASet 3 1 2].
Example C22_case :
  vec_run 0 h1 (repeat [] 2) = Some [[1; 9]; [7; 8; 5; 5]; [6; 6; 2]; [1; 2]] /\
  (a <- driven true true 0 2 1 h1 ;; s <- sizeOfArray true a 1 ;; x <- aoa_at true a 2 2 ;; Ok (numArrays a, s, x)) = Ok (4, 4, 2) /\
  vec_run 0 [AEmplace 0 1 5] (repeat [] 1) = None.
Proof. vm_compute. repeat split. Qed.

(** C23: in the state after any valid history (any T; when it ends normally) the inner arrays are laid out one
    after another inside the value buffer. *)
Theorem C23_layout : forall V (dflt : V) chk tv n0 cap0 h M a,
  vec_run dflt h (repeat [] n0) = Some M -> driven chk tv dflt n0 cap0 h = Ok a ->
  forall i, i < numArrays a -> exists o s c o',
    offset a i = Ok o /\ sizeOfArray chk a i = Ok s /\ capacityOfArray chk a i = Ok c /\ offset a (i + 1) = Ok o' /\
    s <= c /\ o' = o + c /\ o' <= valueCapacity a /\
    (forall j, i < j -> j < numArrays a -> exists oj, offset a j = Ok oj /\ o + c <= oj).
Proof.
  intros V dflt chk tv n0 cap0 h M a H E i Hi. pose proof (driven_rep chk tv dflt n0 cap0 h) as D. rewrite H in D.
  destruct D as [(a' & E' & R)|[T E']]; rewrite E in E'; [|discriminate]. injection E' as <-.
  pose proof (AoAProofs4.rep_num R) as N. rewrite N in Hi.
  set (K := cap_run dflt h (repeat [] n0) (repeat cap0 n0)) in *.
  destruct (AoAProofs4.rep_lens R) as [LK LE].
  destruct (nth_error M i) as [r|] eqn:Er; [|apply nth_error_None in Er; lia].
  destruct (nth_error K i) as [k|] eqn:Ek; [|apply nth_error_None in Ek; lia].
  assert (Q : forall j, list_sum (firstn (i + 1 + j) K) = list_sum (firstn i K) + k + list_sum (firstn j (skipn (i + 1) K))).
  { intros j. apply nth_error_split in Ek. destruct Ek as (A & B & -> & <-).
    rewrite firstn_app, firstn_all2 by lia. replace (length A + 1 + j - length A) with (S j) by lia.
    rewrite firstn_app, Nat.sub_diag. rewrite firstn_all. simpl firstn. rewrite app_nil_r.
    rewrite skipn_app, skipn_all2 by lia. replace (length A + 1 - length A) with 1 by lia. simpl skipn. simpl app.
    unfold list_sum. rewrite fold_right_app. simpl.
    assert (G : forall l z, fold_right Nat.add z l = fold_right Nat.add 0 l + z) by (induction l; simpl; intros; auto; rewrite IHl; lia).
    rewrite G. lia. }
  exists (list_sum (firstn i K)), (length r), k, (list_sum (firstn (i + 1) K)).
  assert (Q1 : list_sum (firstn (i + 1) K) = list_sum (firstn i K) + k).
  { specialize (Q 0). rewrite Nat.add_0_r in Q. rewrite Q. simpl. lia. }
  repeat split.
  - apply (AoAProofs4.rep_offset R). lia.
  - exact (AoAProofs4.rep_size chk R Er).
  - exact (AoAProofs4.rep_cap chk R Ek).
  - apply (AoAProofs4.rep_offset R). lia.
  - exact (LE _ _ _ Er Ek).
  - exact Q1.
  - pose proof (AoAProofs4.rep_vcap R) as C. fold K in C.
    specialize (Q (length K - (i + 1))). replace (i + 1 + (length K - (i + 1))) with (length K) in Q by lia.
    rewrite firstn_all in Q. lia.
  - intros j Hj Hj2. exists (list_sum (firstn j K)). split; [apply (AoAProofs4.rep_offset R); lia|].
    specialize (Q (j - (i + 1))). replace (i + 1 + (j - (i + 1))) with j in Q by lia. lia.
Qed.
Print Assumptions C23_layout.

(** The inner array a call is about. *)
Definition target {V} (c : acall V) : option nat :=
  match c with
  | AEmplaceBack i _ | AAppendTo i _ | AEmplace i _ _ | AInsertInto i _ _ | AEraseFrom i _ _
  | AResizeArray i _ _ | AClearArray i | ASetCapacity i _ | ASet i _ _ => Some i
  | _ => None
  end.

(** A call on inner array [i] leaves every other inner array as it was. *)
Theorem C23_others_unchanged : forall V (dflt : V) chk tv n0 cap0 h M a c i k j,
  vec_run dflt h (repeat [] n0) = Some M -> driven chk tv dflt n0 cap0 h = Ok a ->
  target c = Some i -> vec_step dflt c M <> None -> k <> i -> k < numArrays a ->
  forall a', astep chk tv true false BMalloc dflt c a = Ok a' ->
  sizeOfArray chk a' k = sizeOfArray chk a k /\ capacityOfArray chk a' k = capacityOfArray chk a k /\
  (forall s, sizeOfArray chk a k = Ok s -> j < s -> aoa_at chk a' k j = aoa_at chk a k j).
Proof.
  intros V dflt chk tv n0 cap0 h M a c i k j H E T NN Ne Hk a' Es.
  pose proof (driven_rep chk tv dflt n0 cap0 h) as D. rewrite H in D.
  destruct D as [(a0 & E0 & R)|[T0 E0]]; rewrite E in E0; [|discriminate]. injection E0 as <-.
  set (K := cap_run dflt h (repeat [] n0) (repeat cap0 n0)) in *.
  pose proof (@AoAProofs4.step_ok V unit chk tv true (fun _ => tt) dflt c a M K R) as S.
  destruct (vec_step dflt c M) as [M'|] eqn:EM; [|congruence]. clear NN.
  destruct S as [(a1 & E1 & R1)|[T1 E1]]; rewrite Es in E1; [|discriminate]. injection E1 as <-.
  assert (P1 : forall (X : Type) (l : list X) y, nth_error (put_at l i y) k = nth_error l k \/ length l <= i).
  { intros X l y. destruct (Nat.le_gt_cases (length l) i) as [?|Hi]; [right; auto|left].
    destruct (AoAProofs4.split_lt Hi) as (xs & z & ys & -> & <-). rewrite AoAProofs4.put_mid by auto.
    destruct (Nat.lt_ge_cases k (length xs)) as [?|?].
    - rewrite !nth_error_app1 by auto. auto.
    - rewrite !nth_error_app2 by lia. destruct (k - length xs) eqn:Q; [lia|]. reflexivity. }
  assert (NM : nth_error M' k = nth_error M k).
  { assert (G : forall f, on_row M i f = Some M' -> nth_error M' k = nth_error M k).
    { intros f. unfold on_row. destruct (nth_error M i) as [r|] eqn:Er; [|discriminate].
      destruct (f r) as [r'|]; [|discriminate]. intros X. injection X as <-.
      destruct (P1 _ M r') as [?|Q]; auto. apply nth_error_None in Q. congruence. }
    destruct c; simpl in T; try discriminate; injection T as ->; eapply G; exact EM. }
  destruct (AoAProofs4.rep_lens R) as [LK _]. destruct (AoAProofs4.rep_lens R1) as [LK1 _].
  rewrite (AoAProofs4.rep_num R) in Hk.
  assert (Hi : i < length K).
  { rewrite LK. destruct (Nat.le_gt_cases (length M) i) as [Q|Q]; auto. exfalso.
    apply nth_error_None in Q. destruct c; simpl in T; try discriminate; injection T as ->;
    simpl in EM; unfold on_row in EM; rewrite Q in EM; discriminate. }
  assert (NK : nth_error (cap_step c M K) k = nth_error K k).
  { destruct c; simpl in T; try discriminate; injection T as ->; simpl; auto; unfold cap_grow;
    match goal with |- context [put_at K i ?y] => destruct (P1 _ K y) as [?|?]; auto; lia end. }
  destruct (nth_error M k) as [r|] eqn:Er; [|apply nth_error_None in Er; lia].
  destruct (nth_error K k) as [q|] eqn:Eq; [|apply nth_error_None in Eq; lia].
  split; [|split].
  - rewrite (AoAProofs4.rep_size chk R Er), (AoAProofs4.rep_size chk R1 NM). reflexivity.
  - rewrite (AoAProofs4.rep_cap chk R Eq), (AoAProofs4.rep_cap chk R1 NK). reflexivity.
  - intros s Ess Hj. rewrite (AoAProofs4.rep_size chk R Er) in Ess. injection Ess as <-.
    destruct (nth_error r j) as [v|] eqn:Ev; [|apply nth_error_None in Ev; lia].
    rewrite (AoAProofs4.rep_at chk R Er Ev), (AoAProofs4.rep_at chk R1 NM Ev). reflexivity.
Qed.
Print Assumptions C23_others_unchanged.

Example C23_case :
  (a <- driven true false 0 2 1 [AEmplaceBack 0 1; AEmplaceBack 1 2] ;;
   a' <- astep true false true false BMalloc 0 (AAppendTo 0 [3; 4]) a ;;
   o <- offset a' 1 ;; x <- aoa_at true a' 1 0 ;; Ok (o, x, valueCapacity a')) = Ok (6, 2, 14).
Proof. vm_compute. reflexivity. Qed.

(** C24: T with observable lifetimes. A valid history either ends normally, with every element constructed
    once and destroyed once (the destructor returns; leaks would be Fault FLeak), or its only violation is a
    move out of a slot never constructed (Fault FMove), which needs a state with unused capacity. *)
Theorem C24_lifetimes : forall V (dflt : V) chk tv n0 cap0 h M,
  vec_run dflt h (repeat [] n0) = Some M ->
  (exists a, driven chk tv dflt n0 cap0 h = Ok a /\ displays chk a M /\ aoa_dtor chk tv true false BMalloc a = Ok tt) \/
  (tv = false /\ always_full dflt h (repeat [] n0) (repeat cap0 n0) = false /\ driven chk tv dflt n0 cap0 h = Fault FMove).
Proof.
  intros V dflt chk tv n0 cap0 h M H. pose proof (driven_rep chk tv dflt n0 cap0 h) as D. rewrite H in D.
  destruct D as [(a & E & R)|[T E]].
  - left. exists a. split; [exact E|]. split; [exact (rep_displays chk R)|exact (AoAProofs4.dtor_ok chk R)].
  - right. apply orb_false_iff in T. tauto.
Qed.
Print Assumptions C24_lifetimes.

(** The violation happens: two inner arrays with room for two elements each, one element put into each, then
    room for one more array's elements: the value buffer is reallocated with its unused slots. *)
Theorem C24_violated : exists h M, vec_run 0 h (repeat [] 2) = Some M /\
  forall chk, driven chk false 0 2 2 h = Fault FMove.
Proof.
  exists [AEmplaceBack 0 1; AEmplaceBack 1 2; AAppendFrom [3]], [[1]; [2]; [3]].
  split; [reflexivity|]. intros []; vm_compute; reflexivity.
Qed.
Print Assumptions C24_violated.

(** Every block is released: the destructor leaves no buffer behind. *)
Theorem C24_no_block_left : forall V (dflt : V) chk tv n0 cap0 h M a,
  vec_run dflt h (repeat [] n0) = Some M -> driven chk tv dflt n0 cap0 h = Ok a ->
  exists a', aoa_free chk tv true false BMalloc a = Ok a' /\ numArrays a' = 0 /\ offs a' = [] /\ szs a' = [] /\ vals a' = [].
Proof.
  intros V dflt chk tv n0 cap0 h M a H E. pose proof (driven_rep chk tv dflt n0 cap0 h) as D. rewrite H in D.
  destruct D as [(a0 & E0 & R)|[T0 E0]]; rewrite E in E0; [|discriminate]. injection E0 as <-.
  destruct R as (L & K & _). destruct (AoAProofs2.free_ok chk (AoAProofs.aok_pok K)) as (a' & E' & (N & _) & Q).
  exists a'. split; [exact E'|]. split; [rewrite N; reflexivity|exact Q].
Qed.
Print Assumptions C24_no_block_left.

Example C24_case :
  always_full 0 [AResizeArray 0 2 7; AResizeArray 1 1 8; AEmplaceBack 0 4] (repeat [] 2) (repeat 0 2) = true /\
  (a <- driven true false 0 2 0 [AResizeArray 0 2 7; AResizeArray 1 1 8; AEmplaceBack 0 4] ;; aoa_at true a 0 2) = Ok 4.
Proof. vm_compute. auto. Qed.

(** C25: compress after any valid history. *)
Theorem C25_compress : forall V (dflt : V) chk tv n0 cap0 h M a,
  vec_run dflt h (repeat [] n0) = Some M -> driven chk tv dflt n0 cap0 h = Ok a ->
  exists a', compress chk tv true false a = Ok a' /\ displays chk a' M /\
    (forall i, i < numArrays a' -> exists s o,
       sizeOfArray chk a' i = Ok s /\ capacityOfArray chk a' i = Ok s /\ offset a' i = Ok o /\ offset a' (i + 1) = Ok (o + s)).
Proof.
  intros V dflt chk tv n0 cap0 h M a H E.
  pose proof (driven_rep chk tv dflt n0 cap0 h) as D. rewrite H in D.
  destruct D as [(a0 & E0 & R)|[T0 E0]]; rewrite E in E0; [|discriminate]. injection E0 as <-.
  destruct R as (L & K & EM & EK).
  destruct (AoAProofs2.compress_ok chk K) as (a' & E' & K').
  exists a'. split; [exact E'|].
  assert (R' : AoAProofs4.arep tv true (fun _ => tt) a' M (map (@length V) M)).
  { exists (AoAProofs2.closed L). split; [exact K'|]. rewrite <- EM. unfold AoAProofs2.closed. rewrite !map_map. split; auto.
    apply map_ext. intros [r k]. unfold AoALayout.wid. simpl. lia. }
  split; [exact (rep_displays chk R')|]. intros i Hi. rewrite (AoAProofs4.rep_num R') in Hi.
  destruct (nth_error M i) as [r|] eqn:Er; [|apply nth_error_None in Er; lia].
  exists (length r), (list_sum (firstn i (map (@length V) M))). split; [exact (AoAProofs4.rep_size chk R' Er)|]. split; [|split].
  - apply (AoAProofs4.rep_cap chk R'). apply map_nth_error. exact Er.
  - apply (AoAProofs4.rep_offset R'). lia.
  - rewrite (AoAProofs4.rep_offset R') by lia. f_equal.
    apply nth_error_split in Er. destruct Er as (A & B & -> & <-).
    rewrite map_app. rewrite !firstn_app, map_length, Nat.sub_diag. simpl. rewrite app_nil_r.
    replace (length A + 1 - length A) with 1 by lia. simpl.
    rewrite !firstn_all2 by (rewrite map_length; lia).
    unfold list_sum. rewrite fold_right_app. simpl.
    assert (G : forall l z, fold_right Nat.add z l = fold_right Nat.add 0 l + z) by (induction l; simpl; intros; auto; rewrite IHl; lia).
    rewrite G. lia.
Qed.
Print Assumptions C25_compress.

Example C25_case :
  (a <- driven true false 0 3 4 [AEmplaceBack 0 1; AAppendTo 2 [5; 6]] ;; a' <- compress true false true false a ;;
   c0 <- capacityOfArray true a' 0 ;; c1 <- capacityOfArray true a' 1 ;; c2 <- capacityOfArray true a' 2 ;;
   o2 <- offset a' 2 ;; x <- aoa_at true a' 2 1 ;; Ok (c0, c1, c2, o2, x)) = Ok (1, 0, 2, 1, 6).
Proof. vm_compute. reflexivity. Qed.

(** C26: resizeFromCapacities after any valid history: never a fault; exactly the requested empty arrays; all
    previous elements destroyed (no slot of the value buffer holds an object). *)
Theorem C26_resizeFromCapacities : forall V (dflt : V) chk tv n0 cap0 h M a caps,
  vec_run dflt h (repeat [] n0) = Some M -> driven chk tv dflt n0 cap0 h = Ok a ->
  exists a', resizeFromCapacities chk tv true false BMalloc a caps = Ok a' /\
    numArrays a' = length caps /\
    (forall i c, nth_error caps i = Some c -> sizeOfArray chk a' i = Ok 0 /\ capacityOfArray chk a' i = Ok c) /\
    (tv = false -> Forall (fun x => x = Raw) (vals a')) /\ list_sum caps <= valueCapacity a'.
Proof.
  intros V dflt chk tv n0 cap0 h M a caps H E.
  pose proof (driven_rep chk tv dflt n0 cap0 h) as D. rewrite H in D.
  destruct D as [(a0 & E0 & R)|[T0 E0]]; rewrite E in E0; [|discriminate]. injection E0 as <-.
  destruct R as (L & K & _ & _).
  destruct (AoAProofs2.resizeFromCapacities_ok chk caps (AoAProofs.aok_pok K)) as (a' & E' & K').
  exists a'. split; [exact E'|].
  assert (R' : AoAProofs4.arep tv true (fun _ => tt) a' (map (fun _ => []) caps) caps).
  { exists (AoAProofs2.empties V caps). split; [exact K'|]. unfold AoAProofs2.empties. rewrite !map_map. simpl. split; auto.
    unfold AoALayout.wid. simpl. apply map_id. }
  split; [rewrite (AoAProofs4.rep_num R'), map_length; auto|]. split; [|split].
  - intros i c N. split.
    + apply (AoAProofs4.rep_size chk R' (r := [])). rewrite nth_error_map, N. reflexivity.
    + apply (AoAProofs4.rep_cap chk R' N).
  - intros ->. destruct K' as [_ [[k Mm] _]]. rewrite AoAProofs2.flat_empties, <- repeat_app_add in Mm.
    revert Mm. generalize (AoALayout.total (AoAProofs2.empties V caps) + k). generalize (vals a').
    intros b n. revert b. induction n; intros b Mm; inversion Mm as [|? ? ? ? C Q]; subst; constructor.
    + destruct C as [C|C]; [discriminate|exact C].
    + apply IHn. exact Q.
  - exact (AoAProofs4.rep_vcap R').
Qed.
Print Assumptions C26_resizeFromCapacities.

Example C26_case :
  (a <- driven true false 0 3 4 [AEmplaceBack 0 1; AAppendTo 2 [5; 6]] ;; a' <- resizeFromCapacities true false true false BMalloc a [2; 0; 3] ;;
   c0 <- capacityOfArray true a' 0 ;; c1 <- capacityOfArray true a' 1 ;; c2 <- capacityOfArray true a' 2 ;;
   s <- sizeOfArray true a' 2 ;; Ok (numArrays a', c0, c1, c2, s)) = Ok (3, 2, 0, 3, 0).
Proof. vm_compute. reflexivity. Qed.

(** C56: the capacities after any valid history are exactly those given by [cap_run]. *)
Theorem C56_capacities : forall V (dflt : V) chk tv n0 cap0 h M a i c,
  vec_run dflt h (repeat [] n0) = Some M -> driven chk tv dflt n0 cap0 h = Ok a ->
  nth_error (cap_run dflt h (repeat [] n0) (repeat cap0 n0)) i = Some c ->
  capacityOfArray chk a i = Ok c.
Proof.
  intros V dflt chk tv n0 cap0 h M a i c H E N.
  pose proof (driven_rep chk tv dflt n0 cap0 h) as D. rewrite H in D.
  destruct D as [(a0 & E0 & R)|[T0 E0]]; rewrite E in E0; [|discriminate]. injection E0 as <-.
  exact (AoAProofs4.rep_cap chk R N).
Qed.
Print Assumptions C56_capacities.
Theorem C56_capacities_length : forall V (dflt : V) n0 cap0 h M,
  vec_run dflt h (repeat [] n0) = Some M -> length (cap_run dflt h (repeat [] n0) (repeat cap0 n0)) = length M.
Proof.
  intros V dflt n0 cap0 h M H. pose proof (driven_rep true true dflt n0 cap0 h) as D. rewrite H in D.
  destruct D as [(a & E & R)|[T _]]; [|discriminate]. exact (proj1 (AoAProofs4.rep_lens R)).
Qed.
Print Assumptions C56_capacities_length.

Example C56_case :
  cap_run 0 h1 (repeat [] 2) (repeat 1 2) = [2; 4; 6; 4] /\
  (a <- driven true true 0 2 1 h1 ;; capacityOfArray true a 2) = Ok 6.
Proof. vm_compute. auto. Qed.
