(** C87: the assertions of a debug build in Array and ArrayOfArrays. *)
From Coq Require Import List Arith ZArith Lia Bool.
From Verif Require Import Base BaseProofs Mem BufferManip Array ArraySpec AoA AoASpec Debug PropArray PropAoA.
From Verif Require Import DebugAdds DebugProofs DebugProofs2.
From Verif Require Indexing IndexingSpec AoALayout AoAProofs AoAProofs3 AoAProofs4 BaseProofs ArrayProofs ArrayProofs2 ArrayProofs3 ArrayProofs4.
Import ListNotations.
Set Implicit Arguments.

(** The same program in a debug build *)
Notation drive_debug chk triv kind dflt h :=
  (run (a_vstep true chk kind triv [0] dflt) h (new_array _ kind [0])).
Definition driven_debug {V} (chk tv : bool) (dflt : V) (n0 cap0 : nat) (h : list (acall V)) : outcome (aoa V unit) :=
  a <- g_new_aoa true chk BMalloc V unit tv true false n0 cap0 ;; g_arun true chk BMalloc tv true false dflt h a.

(** * The assertions only add aborts *)
Section Runs.
Variable V C : Type.
Variables f g : C -> array V -> outcome (array V).
Lemma run_adds : (forall c a, adds (f c a) (g c a)) -> forall h a, adds (run f h a) (run g h a).
Proof. intros H. induction h; intros b; simpl; [ apply adds_refl | ]. apply adds_bind; [ apply H | intros; apply IHh ]. Qed.
Lemma run_imp : (forall c a, imp (f c a) (g c a)) -> forall h a, imp (run f h a) (run g h a).
Proof. intros H. induction h; intros b; simpl; [ apply imp_refl | ]. apply imp_bind; [ apply H | intros; apply IHh ]. Qed.
Lemma run_app (s : C -> array V -> outcome (array V)) h1 h2 : forall a, run s (h1 ++ h2) a = (b <- run s h1 a ;; run s h2 b).
Proof. induction h1; intros b; simpl; [ reflexivity | ]. destruct (s a b); simpl; auto. Qed.
End Runs.

Theorem C87_only_adds_aborts : forall V (dflt : V) chk triv kind perm,
  (forall h a, let r := run (a_vstep true chk kind triv perm dflt) h a in r = run (vstep chk triv kind perm dflt) h a \/ r = Abort) /\
  (forall h a, let r := run (a_nstep true chk kind triv perm dflt) h a in r = run (nstep chk triv kind perm dflt) h a \/ r = Abort) /\
  (forall W tw dual h (a : aoa V W), let r := g_arun true chk kind triv tw dual dflt h a in r = arun chk triv tw dual kind dflt h a \/ r = Abort).
Proof.
  intros V dflt chk triv kind perm. split; [ | split ].
  - intros h a. apply run_adds. intros. apply s_vstep.
  - intros h a. apply run_adds. intros. apply s_nstep.
  - intros W tw dual h a. apply s_arun.
Qed.
Print Assumptions C87_only_adds_aborts.

(** * Array *)
(** Every history of the N-dimensional interface, valid or not, from every state: whenever it ends normally
    it ends with the same array in a debug build; and so does the destructor. *)
Theorem C87_dimensions : forall V (dflt : V) chk triv kind perm h a a',
  run (nstep chk triv kind perm dflt) h a = Ok a' -> run (a_nstep true chk kind triv perm dflt) h a = Ok a'.
Proof. intros V dflt chk triv kind perm h a a'. apply run_imp. intros. apply i_nstep. Qed.
Print Assumptions C87_dimensions.
Theorem C87_destructor : forall V chk triv kind (a : array V),
  dtor chk triv kind a = Ok tt -> a_dtor true chk kind triv a = Ok tt.
Proof. intros V chk triv kind a. apply i_dtor. Qed.
Print Assumptions C87_destructor.

(** The history inserts an empty range before any call needed room for an element. *)
Fixpoint idle_insert {V} (h : list (vcall V)) : bool :=
  match h with
  | [] => false
  | VInsert _ [] :: _ => true
  | c :: h' => if need c [] =? 0 then idle_insert h' else false
  end.

Section Vec.
Variable V : Type.
Variable dflt : V.
Variables chk triv : bool.
Notation rel := (vstep chk triv BMalloc [0] dflt).
Notation deb := (a_vstep true chk BMalloc triv [0] dflt).
Notation arr_ok := (ArrayProofs.arr_ok triv [0]).
Lemma vec_with_room h : forall a l l', arr_ok a l -> 0 < length (a_buf a) -> vectors dflt h l = Some l' -> imp (run rel h a) (run deb h a).
Proof.
  induction h as [|c h IH]; intros a l l' A L X; simpl in *; [ apply imp_refl | ].
  destruct (vector dflt c l) as [l1|] eqn:Y; [ | discriminate ].
  destruct (@ArrayProofs3.vstep_ok V chk triv BMalloc dflt c a l l1 A Y (or_introl eq_refl)) as (a1 & E & A1 & C).
  apply imp_bind.
  - apply i_vstep. intros pos _. apply nn. exact L.
  - intros x Ex. rewrite E in Ex. injection Ex as <-. apply (IH a1 l1 l' A1); [ | exact X ]. rewrite C.
    destruct c; cbn [capacity_after]; try lia; match goal with |- context [?x <? ?y] => destruct (Nat.ltb_spec x y); lia end.
Qed.
Lemma null_array (a : array V) : arr_ok a [] -> length (a_buf a) = 0 -> a_buf a = [] /\ size a = 0 /\ a_dims a = [0].
Proof.
  intros A L. split; [ destruct (a_buf a); [ reflexivity | discriminate ] | ]. split; [ exact (ArrayProofs.size_ok A) | ].
  destruct A as (D & _ & _ & P & _). destruct (a_dims a) as [|x [|? ?]]; try discriminate. simpl in P. f_equal. lia.
Qed.
Lemma vec_null h : forall a l', arr_ok a [] -> length (a_buf a) = 0 -> vectors dflt h [] = Some l' ->
  run deb h a = if idle_insert h then Abort else run rel h a.
Proof.
  induction h as [|c h IH]; intros a l' A L X; [ reflexivity | ].
  cbn [vectors] in X. destruct (vector dflt c []) as [l1|] eqn:Y; [ | discriminate ].
  destruct (@ArrayProofs3.vstep_ok V chk triv BMalloc dflt c a [] l1 A Y (or_introl eq_refl)) as (a1 & E & A1 & C).
  assert (EI : (exists pos, c = VInsert pos []) \/ (forall pos, c <> VInsert pos [])).
  { destruct c as [ | | pos [|x vs] | | | | | | | ]; try (right; intros ? ?; discriminate). left. eauto. }
  destruct EI as [[pos ->]|NI].
  - simpl. destruct (null_array A L) as (B0 & S0 & _). unfold a_insert, b_insert, checkInsert, check. rewrite B0, S0. simpl.
    simpl in Y. destruct (0 <=? pos)%Z eqn:P1 in Y; [ | discriminate ]. destruct (pos <=? 0)%Z eqn:P2 in Y; [ | discriminate ].
    assert (pos = 0%Z) as -> by (apply Z.leb_le in P1, P2; lia). destruct chk; reflexivity.
  - assert (D : deb c a = Ok a1). { refine (@i_vstep true chk BMalloc V triv [0] dflt c a _ a1 E). intros pos ->. destruct (NI pos eq_refl). }
    assert (I : idle_insert (c :: h) = if need c [] =? 0 then idle_insert h else false).
    { destruct c as [ | | pos [|x vs] | | | | | | | ]; try reflexivity. destruct (NI pos eq_refl). }
    rewrite I. simpl run. rewrite D, E. cbn [bind]. rewrite L in C.
    destruct (Nat.eqb_spec (need c []) 0) as [Z|Z].
    + assert (length (a_buf a1) = 0).
      { rewrite C. destruct c; cbn [capacity_after need] in *; try reflexivity; rewrite Z; reflexivity. }
      assert (l1 = []) as ->.
      { pose proof (ArrayProofs4.arr_cap A1) as Q. unfold Array.capacity, BufferManip.capacity in Q. destruct l1; [ reflexivity | simpl in Q; lia ]. }
      apply (IH a1 l'); auto.
    + destruct (@ArrayProofs3.vrun_ok V chk triv BMalloc dflt h a1 l1 l' eq_refl A1 X) as (r & Er & _).
      rewrite Er. apply (@vec_with_room h a1 l1 l' A1); [ | exact X | exact Er ]. rewrite C.
      destruct c; cbn [capacity_after need length] in *; try lia; match goal with |- context [?x <? ?y] => destruct (Nat.ltb_spec x y); lia end.
Qed.
End Vec.

(** Every valid history on a one dimensional array, element type and checks arbitrary: a debug build ends with
    the same array, except that it aborts in a history which inserts an empty range before any call needed room. *)
Theorem C87_vector : forall V (dflt : V) chk triv h l,
  vectors dflt h [] = Some l ->
  exists a, drive chk triv BMalloc dflt h = Ok a /\ shows chk [0] a l /\
    drive_debug chk triv BMalloc dflt h = if idle_insert h then Abort else Ok a.
Proof.
  intros V dflt chk triv h l H. destruct (@C01_vector V dflt chk triv h l H) as (a & E & S). exists a. split; [ exact E | ].
  split; [ exact S | ]. rewrite <- E. apply (@vec_null V dflt chk triv h _ l); [ | reflexivity | exact H ].
  exact (ArrayProofs2.new_ok V triv BMalloc ArrayProofs3.perm1 ArrayProofs3.nz1).
Qed.
Print Assumptions C87_vector.
(** A StackBuffer has no null pointer: no exception. *)
Theorem C87_stack : forall V (dflt : V) chk triv n perm h a a',
  run (vstep chk triv (BStack n) perm dflt) h a = Ok a' -> run (a_vstep true chk (BStack n) triv perm dflt) h a = Ok a'.
Proof. intros V dflt chk triv n perm h a a'. apply run_imp. intros c b. apply i_vstep. reflexivity. Qed.
Print Assumptions C87_stack.
(** The valid call a debug build does not survive: a.insert( 0, first, first ) on a default constructed array *)
Theorem C87_vector_refuted : forall V (dflt : V) chk triv,
  vectors dflt [VInsert 0%Z []] [] = Some [] /\
  drive chk triv BMalloc dflt [VInsert 0%Z []] = Ok (new_array V BMalloc [0]) /\
  drive_debug chk triv BMalloc dflt [VInsert 0%Z []] = Abort.
Proof. intros V dflt [|] triv; repeat split; reflexivity. Qed.
Print Assumptions C87_vector_refuted.

(** With bounds checks and assertions, every history is carried out as on a vector or aborts: there is no
    exception for pop_back() any more (compare C01_checked). *)
Theorem C87_checked : forall V (dflt : V) triv h,
  drive_debug true triv BMalloc dflt h = Abort \/
  exists a l, drive_debug true triv BMalloc dflt h = Ok a /\ vectors dflt h [] = Some l /\ shows true [0] a l.
Proof.
  intros V dflt triv h.
  assert (AD : forall g, drive_debug true triv BMalloc dflt g = drive true triv BMalloc dflt g \/ drive_debug true triv BMalloc dflt g = Abort).
  { intros g. apply run_adds. intros. apply s_vstep. }
  destruct (@ArrayProofs3.vrun_total V true triv BMalloc dflt h _ [] eq_refl
     (ArrayProofs2.new_ok V triv BMalloc ArrayProofs3.perm1 ArrayProofs3.nz1) (or_introl eq_refl)) as [(h1 & h2 & E & X)|[X|(a & E & l & X & A)]].
  - left. subst h. rewrite run_app. destruct (AD h1) as [Y|Y]; rewrite Y; [ | reflexivity ].
    destruct (@C01_vector V dflt true triv h1 [] X) as (a & E & S & _). rewrite E. cbn [bind run a_vstep].
    unfold a_pop_back, b_popBack. simpl in S. rewrite S. unfold d_popBack, assert_. cbn [Nat.ltb Nat.leb negb].
    destruct (check true (a_buf a) 0) as [[]| |] eqn:K; [ | reflexivity | ].
    + cbn [bind]. unfold check_if at 1. simpl. destruct (negb _); reflexivity.
    + unfold check, check_if in K. destruct (_ && _)%bool in K; discriminate.
  - left. destruct (AD h) as [Y|Y]; rewrite Y; [ exact X | reflexivity ].
  - destruct (AD h) as [Y|Y]; rewrite Y; [ | left; reflexivity ]. right. exists a, l. split; [ exact E | ]. split; [ exact X | ].
    apply ArrayProofs3.arr_shows with (triv := triv). exact A.
Qed.
Print Assumptions C87_checked.
Example C87_case :
  (* insertions of nothing are harmless once there is room *)
  drive_debug true false BMalloc 0 [VEmplaceBack 1; VPopBack; VInsert 0%Z []; VInsert 0%Z [4;5]; VErase 0%Z] =
    Ok (mkArray [1] [1] 0 [Obj 5; Raw]) /\
  idle_insert [VClear; VReserve (-3)%Z; VInsert 0%Z []; VEmplaceBack 1] = true /\
  drive_debug false false BMalloc 0 [VClear; VReserve (-3)%Z; VInsert 0%Z []; VEmplaceBack 1] = Abort /\
  drive_debug false false (BStack 2) 0 [VInsert 0%Z []; VEmplaceBack 1] = Ok (mkArray [1] [1] 0 [Obj 1; Raw]) /\
  (* undefined behaviour of the build without assertions becomes an abort *)
  drive true true BMalloc 0 [VPopBack] = Fault FOob /\ drive_debug true true BMalloc 0 [VPopBack] = Abort /\
  run (a_nstep true true BMalloc false [1;0] 0) [NResize [2;2]%Z; NSet [0;1]%Z 7; NSetIndex 0%Z; NResizeDefault 3%Z 5; NResize1 1%Z] (new_array nat BMalloc [1;0]) =
    Ok (mkArray [1;2] [1;1] 0 [Obj 0; Obj 7; Raw; Raw; Raw; Raw]).
Proof. repeat split; vm_compute; reflexivity. Qed.

(** * ArrayOfArrays *)
(** No call of the history inserts an empty range into an inner array. *)
Definition no_empty_insertion {V} (h : list (acall V)) : Prop := forall i j, ~ In (AInsertInto i j []) h.

Section Arrays.
Variable V : Type.
Variable dflt : V.
Variables chk tv : bool.
Notation arep := (@AoAProofs4.arep V unit tv true (fun _ => tt)).
Lemma arrays_run h : forall a M K M', arep a M K -> vec_run dflt h M = Some M' -> no_empty_insertion h ->
  imp (arun chk tv true false BMalloc dflt h a) (g_arun true chk BMalloc tv true false dflt h a).
Proof.
  induction h as [|c h IH]; intros a M K M' R X N; simpl in *; [ apply imp_refl | ].
  destruct (vec_step dflt c M) as [M1|] eqn:Y; [ | discriminate ].
  apply imp_bind.
  - apply (@g_step_i V unit true chk tv true (fun _ => tt) dflt c a M K M1 R Y). intros (i & j & -> & _). apply (N i j). left. reflexivity.
  - intros a1 E. pose proof (@AoAProofs4.step_ok V unit chk tv true (fun _ => tt) dflt c a M K R) as S. rewrite Y in S.
    apply (IH a1 M1 (cap_step c M K) M'); [ exact (okb_get S E) | exact X | intros i j I; apply (N i j); right; exact I ].
Qed.
Lemma idle_aborts i j a M K a' : arep a M K -> nth_error M i <> None -> valueCapacity a = 0 ->
  astep chk tv true false BMalloc dflt (AInsertInto i j []) a = Ok a' ->
  g_astep true chk BMalloc tv true false dflt (AInsertInto i j []) a = Abort.
Proof.
  intros (L & H & <- & <-) N Z E. destruct (nth_error (map fst L) i) as [r|] eqn:Er; [ | congruence ].
  destruct (AoAProofs4.row_at Er) as (A & k & B & -> & <-). pose proof H as [I [Y _]].
  pose proof (AoALayout.lay_cap Y) as T. unfold valueCapacity, BufferManip.capacity in Z. rewrite Z in T.
  simpl in *. unfold aoa_insertIntoArray in E. unfold g_aoa_insertIntoArray.
  destruct (dynamicallyGrowArray chk tv true false BMalloc a (length A) (length (@nil V))) as [a1| |] eqn:G; try discriminate.
  rewrite (@g_grow_i V unit true chk tv true a _ _ a1 G). cbn [bind] in E |- *.
  assert (a1 = a) as ->.
  { unfold dynamicallyGrowArray in G. rewrite (AoAProofs3.row_size chk I) in G. cbn [bind] in G.
    rewrite (AoAProofs.capacityOf_at chk I (AoAProofs3.row_nth A (r, k) B)) in G. cbn [bind] in G. unfold AoALayout.wid in G. simpl in G.
    replace (length r + k <? length r + 0) with false in G by (symmetry; apply Nat.ltb_ge; lia). congruence. }
  unfold v_insertIntoArray in E. unfold g_v_insertIntoArray.
  destruct (check_array_insert2 chk a (length A) j); try discriminate. cbn [bind] in E |- *.
  destruct (check_capacity chk a (length A) _); try discriminate. cbn [bind] in E |- *.
  assert (O : offset a (length A) = Ok 0).
  { rewrite (AoAProofs.offset_at I) by (rewrite app_length; lia). f_equal.
    rewrite BaseProofs.firstn_app_exact by reflexivity. rewrite AoALayout.total_app in T. lia. }
  rewrite O. cbn [bind]. rewrite (AoAProofs3.row_size chk I). cbn [bind].
  unfold d_insert, assert_, check_if, nonnull. rewrite Z. reflexivity.
Qed.
End Arrays.

Theorem C87_arrays : forall V (dflt : V) chk tv n0 cap0 h M a,
  vec_run dflt h (repeat [] n0) = Some M -> no_empty_insertion h ->
  driven chk tv dflt n0 cap0 h = Ok a -> driven_debug chk tv dflt n0 cap0 h = Ok a.
Proof.
  intros V dflt chk tv n0 cap0 h M a X N E. revert a E. change (imp (driven chk tv dflt n0 cap0 h) (driven_debug chk tv dflt n0 cap0 h)).
  unfold driven, driven_debug. apply imp_bind; [ unfold new_aoa, g_new_aoa; apply g_resizeImpl_i | ]. intros a0 E0.
  destruct (@AoAProofs4.new_ok V unit chk tv true (fun _ => tt) n0 cap0) as (a1 & E1 & R). rewrite E1 in E0. injection E0 as <-.
  exact (@arrays_run V dflt chk tv h a1 _ _ M R X N).
Qed.
Print Assumptions C87_arrays.
(** So valid histories over a trivially copyable T show the vector of vectors in a debug build too. *)
Theorem C87_arrays_shown : forall V (dflt : V) chk n0 cap0 h M,
  vec_run dflt h (repeat [] n0) = Some M -> no_empty_insertion h ->
  exists a, driven_debug chk true dflt n0 cap0 h = Ok a /\ displays chk a M.
Proof.
  intros V dflt chk n0 cap0 h M X N. destruct (@C22_vector_of_vectors V dflt chk n0 cap0 h M X) as (a & E & D).
  exists a. split; [ exact (@C87_arrays V dflt chk true n0 cap0 h M a X N E) | exact D ].
Qed.
Print Assumptions C87_arrays_shown.
(** One more valid call after any valid history: the debug build does the same, or the call is
    insertIntoArray( i, j, first, first ) while valueCapacity() is zero, and then it always aborts. *)
Theorem C87_arrays_call : forall V (dflt : V) chk tv n0 cap0 h M a c M' a',
  vec_run dflt h (repeat [] n0) = Some M -> driven chk tv dflt n0 cap0 h = Ok a ->
  vec_step dflt c M = Some M' -> astep chk tv true false BMalloc dflt c a = Ok a' ->
  ((exists i j, c = AInsertInto i j []) /\ valueCapacity a = 0 -> g_astep true chk BMalloc tv true false dflt c a = Abort) /\
  (~ ((exists i j, c = AInsertInto i j []) /\ valueCapacity a = 0) -> g_astep true chk BMalloc tv true false dflt c a = Ok a').
Proof.
  intros V dflt chk tv n0 cap0 h M a c M' a' X E Y S. pose proof (driven_rep chk tv dflt n0 cap0 h) as D. rewrite X in D.
  pose proof (okb_get D E) as R. split.
  - intros [(i & j & ->) Z]. apply (@idle_aborts V dflt chk tv i j a M _ a' R); [ | exact Z | exact S ].
    simpl in Y. unfold on_row in Y. destruct (nth_error M i); [ discriminate | discriminate ].
  - intros N. refine (@g_step_i V unit true chk tv true (fun _ => tt) dflt c a M _ M' R Y _ a' S).
    intros (i & j & -> & Z). apply N. split; eauto.
Qed.
Print Assumptions C87_arrays_call.
(** The destructor of every array of arrays, too. *)
Theorem C87_arrays_destructor : forall V W chk tv tw (a : aoa V W),
  aoa_dtor chk tv tw false BMalloc a = Ok tt -> g_aoa_dtor true chk BMalloc tv tw false a = Ok tt.
Proof.
  intros V W chk tv tw a. enough (H : imp (aoa_dtor chk tv tw false BMalloc a) (g_aoa_dtor true chk BMalloc tv tw false a)) by (apply H).
  unfold aoa_dtor, g_aoa_dtor. apply imp_bind; [ apply g_free_i | intros; apply imp_refl ].
Qed.
Print Assumptions C87_arrays_destructor.
(** ArrayOfArrays< T > a( 1 ); a.insertIntoArray( 0, 0, first, first ); is valid and a debug build aborts. *)
Theorem C87_arrays_refuted : forall V (dflt : V) chk tv,
  vec_run dflt [AInsertInto 0 0 []] (repeat [] 1) = Some [[]] /\
  (exists a, driven chk tv dflt 1 0 [AInsertInto 0 0 []] = Ok a) /\
  driven_debug chk tv dflt 1 0 [AInsertInto 0 0 []] = Abort.
Proof. intros V dflt [|] [|]; (split; [ reflexivity | split; [ eexists; vm_compute; reflexivity | vm_compute; reflexivity ] ]). Qed.
Print Assumptions C87_arrays_refuted.
Example C87_arrays_case :
  let h := [AAppendTo 0 []; AResizeArray 1 0 9; ACompress; AAppendFrom [1;2]; AInsertInto 2 1 []; AInsertInto 0 0 [];
            AInsertInto 0 0 [5]; ASetCapacity 2 1; AInsertArray 1 []; ACompress; AEraseArray 0; AAppend 2; AEraseFrom 3 0 1] in
  vec_run 0 h [[];[]] = Some [[];[];[1];[0]] /\
  driven_debug true true 0 2 0 h = driven true true 0 2 0 h /\
  match driven_debug true true 0 2 0 h with Ok a => map (sizeOfArray true a) [0;1;2;3] = [Ok 0; Ok 0; Ok 1; Ok 1] | _ => False end.
Proof. split; [ vm_compute; reflexivity | split; vm_compute; reflexivity ]. Qed.

(** The assertions about pointers stop every use of a null pointer with something to do before it is dereferenced. *)
Theorem C87_null : forall V chk triv (v : V) (vs : list V) (src : buf V) size newSize index n, 0 < size ->
  d_destroy true BMalloc triv ([] : buf V) 0 size = Abort /\
  d_uninitializedCopy true BMalloc triv (v :: vs) [] 0 = Abort /\
  d_uninitializedMove true BMalloc triv [] 0 size src 0 = Abort /\
  (src <> [] -> d_uninitializedMove true BMalloc triv src 0 size [] 0 = Abort) /\
  d_uninitializedShiftDown true BMalloc triv ([] : buf V) 0 size n = Abort /\
  d_uninitializedShiftUp true BMalloc triv ([] : buf V) 0 size n = Abort /\
  d_resize true BMalloc triv [] 0 size newSize v = Abort /\
  d_resize true BMalloc triv [] 0 newSize size v = Abort /\
  d_shiftUp true chk BMalloc triv ([] : buf V) 0 size index n = Abort /\
  (index <= size -> d_shiftDown true chk BMalloc triv ([] : buf V) 0 size index n = Abort) /\
  d_emplaceBack true BMalloc triv [] 0 newSize v = Abort /\
  d_append true BMalloc triv [] 0 newSize (v :: vs) = Abort /\
  d_append true BMalloc triv [] 0 size vs = Abort /\
  d_emplace true chk BMalloc triv [] 0 newSize index v = Abort /\
  d_insert true chk BMalloc triv [] 0 newSize index vs = Abort /\
  d_popBack true BMalloc triv ([] : buf V) 0 newSize = Abort.
Proof.
  intros V chk triv v vs src size newSize index n L. destruct size as [|size]; [ lia | ].
  split; [ reflexivity | ]. split; [ reflexivity | ]. split; [ reflexivity | ].
  split. { intros N. destruct src; [ contradiction | reflexivity ]. }
  split; [ reflexivity | ]. split; [ reflexivity | ]. split; [ reflexivity | ].
  split. { unfold d_resize, assert_, check_if, nonnull. cbn [length Nat.eqb andb negb]. rewrite andb_false_r. reflexivity. }
  split; [ reflexivity | ].
  split. { intros I. unfold d_shiftDown, ArrayManip.check_insert_bounds, check_if, error_if.
           destruct (Nat.ltb_spec (S size) index); [ lia | ]. rewrite andb_false_r. reflexivity. }
  split; [ reflexivity | ]. split. { unfold d_append, assert_, check_if, nonnull. cbn [length Nat.eqb andb negb]. rewrite andb_false_r. reflexivity. }
  split; [ reflexivity | ]. split; [ reflexivity | ]. split; reflexivity.
Qed.
Print Assumptions C87_null.
Example C87_null_case : d_resize true BMalloc true ([] : buf nat) 0 0 3 7 = Abort /\ d_resize true BMalloc true ([] : buf nat) 0 0 0 7 = Ok [].
Proof. split; reflexivity. Qed.
