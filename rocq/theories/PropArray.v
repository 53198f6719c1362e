(** Properties C01 - C05, C12, C13, C54: the Array class. Statements use ArraySpec and IndexingSpec only
    besides the modelled functions. *)
From Coq Require Import List Arith ZArith Lia Bool Permutation.
From Verif Require Import Base Mem BufferManip Indexing IndexingSpec Array ArraySpec.
From Verif Require BaseProofs MemProofs BufferManipProofs IndexingProofs ArrayProofs ArrayProofs2 ArrayProofs3 ArrayProofs4.
Import ListNotations.
Set Implicit Arguments.
Unset Strict Implicit.

(** A one dimensional Array<T, 1, ..., MallocBuffer>, default constructed and driven through h. *)
Notation drive chk triv kind dflt h :=
  (run (vstep chk triv kind [0] dflt) h (new_array _ kind [0])).

(** C01: as long as the preconditions hold, size() and a[ i ] are those of a vector, for every history. *)
Theorem C01_vector : forall V (dflt : V) chk triv h l,
  vectors dflt h [] = Some l ->
  exists a, drive chk triv BMalloc dflt h = Ok a /\ shows chk [0] a l.
Proof.
  intros V dflt chk triv h l H.
  destruct (@ArrayProofs3.vrun_ok V chk triv BMalloc dflt h _ [] l eq_refl
     (ArrayProofs2.new_ok V triv BMalloc ArrayProofs3.perm1 ArrayProofs3.nz1) H) as (a & E & A).
  exists a. split; [exact E|]. apply ArrayProofs3.arr_shows with (triv := triv). exact A.
Qed.
Print Assumptions C01_vector.
Example C01_case :
  let h := [VEmplaceBack 1; VEmplaceBack 2; VInsert 1%Z [7;8]; VErase 0%Z; VEmplace 3%Z 9; VPopBack; VResizeDefault 5%Z 4; VSet 0%Z 6] in
  vectors 0 h [] = Some [6;8;2;4;4] /\
  (a <- drive true false BMalloc 0 h ;; at_ true [0] a [3%Z]) = Ok 4.
Proof. split; vm_compute; reflexivity. Qed.

(** C01, bounds checks on: whatever the arguments, a history is carried out as on a vector or aborts,
    unless it pops from an empty array. *)
Theorem C01_checked : forall V (dflt : V) triv h,
  (forall h1 h2, h = h1 ++ VPopBack :: h2 -> vectors dflt h1 [] <> Some []) ->
  drive true triv BMalloc dflt h = Abort \/
  exists a l, drive true triv BMalloc dflt h = Ok a /\ vectors dflt h [] = Some l /\ shows true [0] a l.
Proof.
  intros V dflt triv h N.
  destruct (@ArrayProofs3.vrun_total V true triv BMalloc dflt h _ [] eq_refl
     (ArrayProofs2.new_ok V triv BMalloc ArrayProofs3.perm1 ArrayProofs3.nz1) (or_introl eq_refl)) as [(h1 & h2 & E & X)|[X|(a & E & l & X & A)]].
  - exfalso. eapply N; eauto.
  - left. exact X.
  - right. exists a, l. split; [exact E|]. split; [exact X|]. apply ArrayProofs3.arr_shows with (triv := triv). exact A.
Qed.
Print Assumptions C01_checked.
Example C01_checked_case :
  drive true true BMalloc 0 [VEmplaceBack 1; VEmplace 5%Z 2] = Abort /\
  drive true true BMalloc 0 [VErase (-1)%Z] = Abort /\
  (* the exception is real: pop_back on an empty array is not caught *)
  drive true true BMalloc 0 [VPopBack] = Fault FOob.
Proof. repeat split; vm_compute; reflexivity. Qed.

(** C02: lifetimes. The result is Ok, so no step read, moved or destroyed an empty slot, built over a live
    object or released a block holding objects (each is a Fault); after every history exactly the
    elements are alive, and destruction leaves nothing behind. *)
Theorem C02_lifetimes : forall V (dflt : V) chk triv kind h l,
  vectors dflt h [] = Some l -> (forall n, kind = BStack n -> fits dflt n h []) ->
  exists a, drive chk triv kind dflt h = Ok a /\ storage triv a l /\ dtor chk triv kind a = Ok tt.
Proof.
  intros V dflt chk triv kind h l H F.
  assert (X : exists a, drive chk triv kind dflt h = Ok a /\ ArrayProofs.arr_ok triv [0] a l).
  { destruct kind as [|n].
    - exact (@ArrayProofs3.vrun_ok V chk triv BMalloc dflt h _ [] l eq_refl (ArrayProofs2.new_ok V triv BMalloc ArrayProofs3.perm1 ArrayProofs3.nz1) H).
    - destruct (@ArrayProofs3.vrun_stack V chk triv (BStack n) dflt n h _ [] l eq_refl
        (ArrayProofs2.new_ok V triv (BStack n) ArrayProofs3.perm1 ArrayProofs3.nz1) (repeat_length _ _) H) as [[_ (a & E & A & _)]|[N _]].
      + exists a. split; [exact E|exact A].
      + exfalso. apply N. apply F. reflexivity. }
  destruct X as (a & E & A). exists a. split; [exact E|]. split.
  - eapply ArrayProofs2.arr_storage. exact A.
  - eapply ArrayProofs2.dtor_ok. exact A.
Qed.
Print Assumptions C02_lifetimes.
Example C02_case :
  drive false false BMalloc 0 [VEmplaceBack 1; VEmplaceBack 2; VErase 0%Z] =
    Ok (mkArray [1] [1] 0 [Obj 2; Raw]) /\
  (* the model does notice broken lifetimes *)
  dtor false false BMalloc (mkArray (V:=nat) [1] [1] 0 [Raw]) = Fault FDestroy /\
  dtor false false BMalloc (mkArray [1] [1] 0 [Obj 2; Obj 3]) = Fault FLeak.
Proof. repeat split; vm_compute; reflexivity. Qed.

(** C03: capacity after each call of any history, and what n appends cost. *)
Theorem C03_capacity : forall V (dflt : V) chk triv h c l l',
  vectors dflt h [] = Some l -> vector dflt c l = Some l' ->
  exists a a', drive chk triv BMalloc dflt h = Ok a /\
    vstep chk triv BMalloc [0] dflt c a = Ok a' /\
    capacity a' = capacity_after c l (capacity a) /\
    size a' <= capacity a' /\ capacity a <= capacity a'.
Proof.
  intros V dflt chk triv h c l l' H X.
  destruct (@ArrayProofs3.vrun_ok V chk triv BMalloc dflt h _ [] l eq_refl
     (ArrayProofs2.new_ok V triv BMalloc ArrayProofs3.perm1 ArrayProofs3.nz1) H) as (a & E & A).
  destruct (@ArrayProofs3.vstep_ok V chk triv BMalloc dflt c a l l' A X (or_introl eq_refl)) as (a' & E' & A' & C).
  exists a, a'. split; [exact E|]. split; [exact E'|]. split; [exact C|].
  change (length (a_buf a')) with (capacity a') in C. change (length (a_buf a)) with (capacity a) in C. split.
  - rewrite (ArrayProofs.size_ok A'). apply (ArrayProofs4.arr_cap A').
  - rewrite C. clear - A. pose proof (ArrayProofs4.arr_cap A). destruct c; cbn [capacity_after]; try lia;
      match goal with |- context [?x <? ?y] => destruct (Nat.ltb_spec x y); lia end.
Qed.
Print Assumptions C03_capacity.

Theorem C03_appends : forall V (dflt : V) chk triv vs,
  vs <> [] ->
  exists states, visited (vstep chk triv BMalloc [0] dflt) (map (@VEmplaceBack V) vs) (new_array V BMalloc [0]) = Ok states /\
    reallocations states <= Nat.log2 (length vs) + 1 /\ moved states < 2 * length vs.
Proof.
  intros V dflt chk triv vs N.
  destruct (@ArrayProofs4.visited_grow V chk triv dflt vs _ [] (ArrayProofs2.new_ok V triv BMalloc ArrayProofs3.perm1 ArrayProofs3.nz1))
    as (st & E & _ & G).
  exists st. split; [exact E|].
  assert (0 < length vs) by (destruct vs; [congruence|simpl; lia]).
  destruct (@ArrayProofs4.grow_final (length vs) 0 0) as [B1 B2]; [lia|lia|].
  change (capacity (new_array V BMalloc [0])) with 0 in G. cbn [length] in G.
  destruct (ArrayProofs4.grow (length vs) 0 0) as [k m]. injection G as -> ->. exact (conj B1 B2).
Qed.
Print Assumptions C03_appends.
Example C03_case :
  match visited (vstep true false BMalloc [0] 0) (map (@VEmplaceBack nat) (seq 0 20)) (new_array nat BMalloc [0]) with
  | Ok st => reallocations st = 4 /\ moved st = 22 /\
             map (@capacity nat) st = [0;2;2;6;6;6;6;14;14;14;14;14;14;14;14;30;30;30;30;30;30]
  | _ => False
  end.
Proof. vm_compute. auto. Qed.

(** C04: a.emplace_back( a[ i ] ). *)
Theorem C04_self_append : forall V (dflt : V) chk triv h l i v,
  vectors dflt h [] = Some l -> nth_error l i = Some v ->
  exists a, drive chk triv BMalloc dflt h = Ok a /\
    (size a < capacity a -> exists a', emplace_back_self chk triv BMalloc a i = Ok a' /\ shows chk [0] a' (l ++ [v])) /\
    (size a = capacity a -> emplace_back_self chk triv BMalloc a i = Fault FDangling).
Proof.
  intros V dflt chk triv h l i v H N.
  destruct (@ArrayProofs3.vrun_ok V chk triv BMalloc dflt h _ [] l eq_refl
     (ArrayProofs2.new_ok V triv BMalloc ArrayProofs3.perm1 ArrayProofs3.nz1) H) as (a & E & A).
  exists a. split; [exact E|]. rewrite (ArrayProofs.size_ok A). split; intros C.
  - destruct (@ArrayProofs4.self_ok V chk triv BMalloc a l i v A N C) as (a' & E' & A' & _).
    exists a'. split; [exact E'|]. apply ArrayProofs3.arr_shows with (triv := triv). exact A'.
  - destruct (@ArrayProofs4.self_full V chk triv BMalloc a l i A (eq_sym C)) as [X _]. apply X. reflexivity.
Qed.
Print Assumptions C04_self_append.
Example C04_case :
  (a <- drive true true BMalloc 0 [VEmplaceBack 5; VEmplaceBack 6] ;; emplace_back_self true true BMalloc a 0) = Fault FDangling /\
  (a <- drive true true BMalloc 0 [VEmplaceBack 5] ;; a' <- emplace_back_self true true BMalloc a 0 ;; at_ true [0] a' [1%Z]) = Ok 5.
Proof. split; vm_compute; reflexivity. Qed.

(** C05: a StackBuffer of n places. *)
Theorem C05_stack : forall V (dflt : V) chk triv n h l,
  vectors dflt h [] = Some l ->
  (fits dflt n h [] /\ exists a, drive chk triv (BStack n) dflt h = Ok a /\ shows chk [0] a l /\ capacity a = n) \/
  (~ fits dflt n h [] /\ drive chk triv (BStack n) dflt h = Abort).
Proof.
  intros V dflt chk triv n h l H.
  destruct (@ArrayProofs3.vrun_stack V chk triv (BStack n) dflt n h _ [] l eq_refl
        (ArrayProofs2.new_ok V triv (BStack n) ArrayProofs3.perm1 ArrayProofs3.nz1) (repeat_length _ _) H) as [[F (a & E & A & C)]|[N X]].
  - left. split; [exact F|]. exists a. split; [exact E|]. split; [|exact C].
    apply ArrayProofs3.arr_shows with (triv := triv). exact A.
  - right. auto.
Qed.
Print Assumptions C05_stack.
Example C05_case :
  fits 0 2 [VEmplaceBack 1; VEmplaceBack 2; VPopBack; VEmplaceBack 3] [] /\
  drive false true (BStack 2) 0 [VEmplaceBack 1; VEmplaceBack 2; VPopBack; VEmplaceBack 3; VEmplaceBack 4] = Abort.
Proof. split; [cbn; lia|vm_compute; reflexivity]. Qed.

(** C12: resize( n ) / resizeDefault( n, v ) along the single-parameter resize dimension, on any array
    obtained by any history of any rank and permutation. *)
Theorem C12_resize_keeps : forall V (dflt : V) chk triv perm h dims r n v,
  is_permutation perm (length perm) -> 0 < length perm -> Forall (static_ok (V:=V) (length perm)) h ->
  extents_after h (repeat 0 (length perm), 0) = Some (dims, r) -> (0 <= n)%Z ->
  exists a a', run (nstep chk triv BMalloc perm dflt) h (new_array V BMalloc perm) = Ok a /\
    resizeDefaultDimension chk triv BMalloc perm a n v = Ok a' /\
    nstep chk triv BMalloc perm dflt (NResizeDefault n v) a = Ok a' /\
    a_dims a = dims /\ a_dims a' = set_ext dims (r, n) /\
    (forall idx, valid_index dims idx -> valid_index (a_dims a') idx ->
       exists x, at_ chk perm a idx = Ok x /\ at_ chk perm a' idx = Ok x) /\
    (forall idx, valid_index (a_dims a') idx -> ~ valid_index dims idx -> at_ chk perm a' idx = Ok v).
Proof.
  intros V dflt chk triv perm h dims r n v P NZ F X Hn.
  destruct (@ArrayProofs2.nrun_ok V chk triv BMalloc perm dflt P NZ h (new_array V BMalloc perm) [] dims r eq_refl
    (ArrayProofs2.new_ok V triv BMalloc P NZ) F X) as (a & E & (vs & A) & D & R).
  pose proof A as (L & S & Rx & Lv & H).
  destruct (ArrayProofs.perm_split P Rx) as (po & pi & Ep & N1 & N2).
  destruct (@ArrayProofs.rdd_ok V chk triv BMalloc perm P NZ a vs (Z.to_nat n) v po pi A Ep N1 N2 (or_introl eq_refl))
    as (a' & E' & _).
  rewrite Z2Nat.id in E' by exact Hn.
  exists a, a'. split; [exact E|]. split; [exact E'|]. split; [exact E'|]. split; [exact D|].
  pose proof (@ArrayProofs.rdd_values V chk triv BMalloc perm P NZ a vs (Z.to_nat n) v a' A (or_introl eq_refl)) as Q.
  rewrite Z2Nat.id in Q by exact Hn. destruct (Q E') as (_ & D' & _ & Q1 & Q2). rewrite D in *. split.
  - rewrite D', R. unfold set_ext. cbn [fst snd]. apply ArrayProofs2.upd_firstn. rewrite L, <- R. exact Rx.
  - split; auto.
Qed.
Print Assumptions C12_resize_keeps.
Example C12_case :
  (a <- run (nstep true false BMalloc [1;0] 0) [NResize [2;2]%Z; NSet [0;1]%Z 7; NSet [1;1]%Z 8; NSetIndex 0%Z] (new_array nat BMalloc [1;0]) ;;
   a' <- resizeDefaultDimension true false BMalloc [1;0] a 3%Z 5 ;;
   x <- at_ true [1;0] a' [1;1]%Z ;; y <- at_ true [1;0] a' [2;1]%Z ;; Ok (a_dims a', x, y)) = Ok ([3;2], 8, 5).
Proof. vm_compute. reflexivity. Qed.

(** C13: extents, strides, size and number of live elements after any history. *)
Theorem C13_extents : forall V (dflt : V) chk triv perm h dims r,
  is_permutation perm (length perm) -> 0 < length perm -> Forall (static_ok (V:=V) (length perm)) h ->
  extents_after h (repeat 0 (length perm), 0) = Some (dims, r) ->
  exists a, run (nstep chk triv BMalloc perm dflt) h (new_array V BMalloc perm) = Ok a /\
    a_dims a = dims /\ a_strides a = calculateStrides perm dims /\ a_rix a = r /\
    size a = extent_product dims /\ size a <= capacity a /\
    (exists l, length l = extent_product dims /\ storage triv a l) /\
    dtor chk triv BMalloc a = Ok tt.
Proof.
  intros V dflt chk triv perm h dims r P NZ F X.
  destruct (@ArrayProofs2.nrun_ok V chk triv BMalloc perm dflt P NZ h (new_array V BMalloc perm) [] dims r eq_refl
    (ArrayProofs2.new_ok V triv BMalloc P NZ) F X) as (a & E & (vs & A) & D & R).
  pose proof A as (L & S & Rx & Lv & H).
  exists a. split; [exact E|]. split; [exact D|]. rewrite <- D. split; [exact S|]. split; [exact R|].
  rewrite (ArrayProofs.size_ok A). split; [exact Lv|]. split.
  - apply BufferManipProofs.holds_cap in H. exact H.
  - split; [|eapply ArrayProofs2.dtor_ok; exact A]. exists vs. split; [exact Lv|]. eapply ArrayProofs2.arr_storage. exact A.
Qed.
Print Assumptions C13_extents.

(** ... and with bounds checks a call outside the specification aborts (an index tuple of the wrong
    length does not compile). *)
Theorem C13_rejects : forall V (dflt : V) triv perm h dims r c,
  is_permutation perm (length perm) -> 0 < length perm -> Forall (static_ok (V:=V) (length perm)) (h ++ [c]) ->
  (forall idx v, c = NSet idx v -> length idx = length perm) ->
  extents_after h (repeat 0 (length perm), 0) = Some (dims, r) -> extents c (dims, r) = None ->
  exists a, run (nstep true triv BMalloc perm dflt) h (new_array V BMalloc perm) = Ok a /\
    nstep true triv BMalloc perm dflt c a = Abort.
Proof.
  intros V dflt triv perm h dims r c P NZ F S X Y.
  apply Forall_app in F. destruct F as [F Fc]. apply Forall_inv in Fc.
  destruct (@ArrayProofs2.nrun_ok V true triv BMalloc perm dflt P NZ h (new_array V BMalloc perm) [] dims r eq_refl
    (ArrayProofs2.new_ok V triv BMalloc P NZ) F X) as (a & E & (vs & A) & D & R).
  exists a. split; [exact E|]. rewrite <- D, <- R in Y.
  destruct (@ArrayProofs2.nstep_abort V true triv BMalloc perm dflt NZ c a vs eq_refl A Fc Y) as [Q|(idx & v & -> & Q)]; [exact Q|].
  exfalso. apply Q. eapply S; reflexivity.
Qed.
Print Assumptions C13_rejects.
Example C13_case :
  let h := [NResize [2;3;4]%Z; NResizeDimension [(0,5%Z);(2,1%Z)]; NSetIndex 1%Z; NResize1 4%Z; NReserve 90%Z] in
  extents_after (V:=nat) h ([0;0;0], 0) = Some ([5;4;1], 1) /\
  (a <- run (nstep true true BMalloc [2;0;1] 0) h (new_array nat BMalloc [2;0;1]) ;; Ok (size a, capacity a)) = Ok (20, 90).
Proof. split; vm_compute; reflexivity. Qed.

(** C54: a.emplace( p, a[ i ] ) with room to spare. Before the insertion point it inserts a copy of
    a[ i ]; after it, it inserts a[ i - 1 ] instead; at it, it reads a slot holding no object. *)
Theorem C54_emplace_own_element : forall V (dflt : V) chk triv h l p i,
  vectors dflt h [] = Some l -> p <= length l -> i < length l ->
  exists a, drive chk triv BMalloc dflt h = Ok a /\
  (size a < capacity a ->
    (i < p -> forall v, nth_error l i = Some v -> exists a',
       emplace_self chk triv BMalloc a (Z.of_nat p) i = Ok a' /\ shows chk [0] a' (firstn p l ++ [v] ++ skipn p l)) /\
    (p < i -> forall v, nth_error l (i - 1) = Some v -> exists a',
       emplace_self chk triv BMalloc a (Z.of_nat p) i = Ok a' /\ shows chk [0] a' (firstn p l ++ [v] ++ skipn p l)) /\
    (i = p -> triv = false -> emplace_self chk triv BMalloc a (Z.of_nat p) i = Fault FRead)).
Proof.
  intros V dflt chk triv h l p i H Hp Hi.
  destruct (@ArrayProofs3.vrun_ok V chk triv BMalloc dflt h _ [] l eq_refl
     (ArrayProofs2.new_ok V triv BMalloc ArrayProofs3.perm1 ArrayProofs3.nz1) H) as (a & E & A).
  exists a. split; [exact E|]. rewrite (ArrayProofs.size_ok A). intros C.
  assert (El : l = firstn p l ++ skipn p l) by (symmetry; apply firstn_skipn).
  assert (Lp : length (firstn p l) = p) by (rewrite firstn_length; lia).
  rewrite El in A, C, Hi.
  destruct (@ArrayProofs4.emplace_self_ok V chk triv BMalloc a (firstn p l) (skipn p l) i A C Hi) as (Q1 & Q2 & Q3).
  rewrite Lp, <- El in *. split; [|split].
  - intros Lt v N. destruct (Q1 v Lt N) as (a' & E' & A'). exists a'. split; [exact E'|].
    apply ArrayProofs3.arr_shows with (triv := triv). exact A'.
  - intros Lt v N. destruct (Q2 v Lt N) as (a' & E' & A'). exists a'. split; [exact E'|].
    apply ArrayProofs3.arr_shows with (triv := triv). exact A'.
  - intros Eq T. apply Q3; assumption.
Qed.
Print Assumptions C54_emplace_own_element.
Example C54_case :
  (a <- drive true true BMalloc 0 [VReserve 9%Z; VInsert 0%Z [10;20;30]] ;;
   a' <- emplace_self true true BMalloc a 0%Z 2 ;; x <- at_ true [0] a' [0%Z] ;; Ok (size a, capacity a, x)) = Ok (3, 9, 20).
Proof. vm_compute. reflexivity. Qed.

(** C55: bufferManipulation::setCapacity to any capacity, smaller or larger than the number of
    elements: the first [n] elements are kept in order, the others are destroyed exactly once, every
    remaining slot of the new block holds no object (triv = false), and the old block is released empty
    (releasing a block with objects in it would be Fault FLeak). *)
Theorem C55_setCapacity : forall V chk triv (vs : list V) slack n,
  exists b, BufferManip.setCapacity chk triv BMalloc (map Obj vs ++ repeat Raw slack) (length vs) n = Ok b /\
    length b = n /\
    (forall i v, i < n -> nth_error vs i = Some v -> rd b i = Ok v) /\
    (triv = false -> b = map Obj (firstn n vs) ++ repeat Raw (n - length vs)).
Proof.
  intros V chk triv vs slack n.
  assert (H : BufferManipProofs.holds triv (map Obj vs ++ repeat Raw slack) vs).
  { exists slack. apply MemProofs.mem_app; [|apply MemProofs.mem_repeat_raw].
    induction vs as [|v vs IH]; simpl; constructor; simpl; auto. }
  destruct (@BufferManipProofs.setCapacity_ok V chk triv BMalloc _ vs n eq_refl H) as (b & E & K & L).
  exists b. split; [exact E|]. split; [exact L|]. split.
  - intros i v Hi N. eapply BufferManipProofs.holds_rd; [exact K|].
    rewrite <- (firstn_skipn n vs) in N. rewrite nth_error_app1 in N; [exact N|].
    rewrite firstn_length. assert (i < length vs) by (apply nth_error_Some; rewrite <- (firstn_skipn n vs); congruence). lia.
  - intros ->. apply BufferManipProofs.holds_mem in K. rewrite L in K.
    replace (n - length (firstn n vs)) with (n - length vs) in K by (rewrite firstn_length; lia).
    clear -K. revert b K. generalize (n - length vs) as k, (firstn n vs) as ws. intros k ws. 
    induction ws as [|w ws IH]; simpl; intros b K.
    + revert b K. induction k as [|k IH]; simpl; intros b K; inversion K as [|? ? ? ? C R]; subst; auto.
      destruct C as [C|C]; [discriminate|]. subst. f_equal. auto.
    + inversion K as [|? ? ? ? C R]; subst. simpl in C. subst. f_equal. auto.
Qed.
Print Assumptions C55_setCapacity.

Example C55_case :
  BufferManip.setCapacity true false BMalloc [Obj 1; Obj 2; Obj 3; Raw] 3 2 = Ok [Obj 1; Obj 2] /\
  BufferManip.setCapacity true false BMalloc [Obj 1; Obj 2] 2 4 = Ok [Obj 1; Obj 2; Raw; Raw].
Proof. vm_compute. auto. Qed.
