(** The insertions into sorted ranges that may throw do what those of Sorted.v do until something throws; what
    incrementSize does comes first. *)
From Coq Require Import List Arith ZArith Lia Bool Sorting.Sorted.
From Verif Require Import Base BaseProofs Mem MemProofs BufferManip AoA Sorted SortedSpec SortedProofs SortedProofs2 SortedProofs3
  SortedArray AoS Throw ThrowProofs ThrowSorted ThrowSortedProofs ThrowSets.
From Verif Require Import ThrowAoAProofs5.
From Verif Require ArrayManip.
Import ListNotations.
Set Implicit Arguments.
Unset Strict Implicit.

Section Sim.
Variable V X : Type.
Variable chk triv : bool.
Variable lt eqb : V -> V -> bool.
Variable cb : callbacks V X.
Variable xcb : xcallbacks V X.
Hypothesis INC : forall n t, xcb_inc xcb n t = cb_inc cb n t.
Hypothesis EVS : forall n e x, sim (xcb_ev xcb n e x) (cb_ev cb e x).

Lemma sim_insert1 n b x p size v :
  sim (x_insert1 chk triv lt eqb xcb n b x p size v) (insert chk triv lt eqb cb b x p size v).
Proof using INC EVS.
  unfold x_insert1, insert. apply sim_bind; [apply sim_lift|]. intros n1 pos. apply sim_bind; [apply sim_lift|]. intros n2 [|].
  - rewrite INC. apply sim_lift.
  - rewrite INC. apply sim_bind; [apply sim_lift|]. intros n3 [[b1 x1] np]. apply sim_bind.
    + apply sim_left. unfold x_am_emplace, ArrayManip.emplace. apply sim_bind; [apply sim_lift|]. intros.
      apply sim_bind; [apply sim_lift|]. intros. apply sim_construct.
    + intros n4 b2. apply sim_bind; [apply sim_left, EVS|]. intros n5 x2. reflexivity.
Qed.
Lemma sim_set_loop vs : forall n b x p k,
  sim (x_set_loop triv xcb n b x p k vs) (set_loop triv cb b x p k vs).
Proof using EVS.
  induction vs as [|v vs IH]; intros n b x p k; cbn [x_set_loop set_loop]; [reflexivity|].
  apply sim_bind; [apply sim_left, sim_construct|]. intros n1 b1. apply sim_bind; [apply sim_left, EVS|]. intros n2 x2. apply IH.
Qed.
Lemma sim_insert_loop vs : forall n b x p ub nl,
  sim (x_insert_loop chk triv lt eqb xcb n b x p ub nl vs) (insert_loop chk triv lt eqb cb b x p ub nl vs).
Proof using EVS.
  induction vs as [|v vs IH]; intros n b x p ub nl; cbn [x_insert_loop insert_loop]; [reflexivity|].
  apply sim_bind; [apply sim_lift|]. intros n1 pos. apply sim_bind; [apply sim_lift|]. intros n2 [|]; [apply IH|].
  apply sim_bind; [apply sim_lift|]. intros n3 b1. apply sim_bind; [apply sim_lift|]. intros n4 d.
  apply sim_bind; [apply sim_left, sim_construct|]. intros n5 b2. apply sim_bind; [apply sim_left, EVS|]. intros n6 x2. apply IH.
Qed.
Lemma sim_inserts n b x p size vs :
  sim (x_inserts chk triv lt eqb xcb n b x p size vs) (inserts chk triv lt eqb cb b x p size vs).
Proof using INC EVS.
  unfold x_inserts, inserts. destruct (size =? 0).
  - rewrite INC. apply sim_bind; [apply sim_lift|]. intros n1 [[b1 x1] np]. apply sim_set_loop.
  - apply sim_bind; [apply sim_lift|]. intros n1 k. rewrite INC. apply sim_bind; [apply sim_lift|]. intros n2 [[b1 x1] np].
    destruct (k =? 0); [reflexivity|]. eapply sim_eq; [|apply sim_bind with (k' := fun r => Ok (fst r, snd r, k)); [apply sim_insert_loop|]].
    + destruct (insert_loop _ _ _ _ _ _ _ _ _ _ _) as [[]| |]; reflexivity.
    + intros n3 r. reflexivity.
Qed.
End Sim.

(** incrementSize is the first effect. *)
Section Fault.
Variable V X : Type.
Variable chk triv : bool.
Variable lt eqb : V -> V -> bool.
Hypothesis T : total_order lt eqb.
Variable cb : xcallbacks V X.
Notation mem := (@mem V triv).
Notation LVs := (map (@LV V)).
Notation id := (fun v : V => v).
Notation incr l := (StronglySorted (fun x y => lt x y = true) l).
Notation present := (present eqb id).
Notation missing A l := (filter (fun w => negb (present A w)) l).

Lemma x_insert1_fault n b x p s l v base size f : mem b (p ++ LVs l ++ s) -> incr l -> base = length p -> size = length l ->
  xcb_inc cb (length (missing l [v])) (b, x) = Fault f -> x_insert1 chk triv lt eqb cb n b x base size v = XFault f.
Proof using T.
  intros M I -> Es Ei. destruct (psplit (key := id) T v I) as (A1 & A2 & EA & LA & GA).
  assert (M0 : mem b (p ++ LVs (map id (A1 ++ A2)) ++ s)) by (rewrite map_id, <- EA; exact M).
  assert (Epos : insert_pos lt b (length p) size v = Ok (length A1)).
  { eapply (@insert_pos_ok V V triv lt eqb id T); eauto; [rewrite <- EA; exact I|rewrite Es, EA; apply app_length]. }
  unfold x_insert1. rewrite Epos. cbn [xlift xbind].
  replace (if length A1 =? size then Ok false else y <- rd b (length p + length A1) ;; Ok (eqb y v)) with (Ok (present l v)).
  2:{ symmetry. rewrite EA. eapply (@check_present V V triv lt eqb id T); eauto; [rewrite <- EA; exact I|rewrite Es, EA; apply app_length]. }
  cbn [xlift xbind]. simpl filter in Ei. destruct (present l v); cbn [negb length] in Ei; rewrite Ei; reflexivity.
Qed.

Lemma x_inserts_fault n b x p s l vs base size f : mem b (p ++ LVs l ++ s) -> incr l -> incr vs -> base = length p -> size = length l ->
  xcb_inc cb (length (missing l vs)) (b, x) = Fault f -> x_inserts chk triv lt eqb cb n b x base size vs = XFault f.
Proof using T.
  intros M I Iv Eb Es Ei. unfold x_inserts. destruct (Nat.eqb_spec size 0) as [E0|E0].
  - destruct l; [|simpl in *; lia]. replace (missing [] vs) with vs in Ei; [rewrite Ei; reflexivity|].
    clear. induction vs as [|w vs IH]; [reflexivity|]. simpl. f_equal. exact IH.
  - assert (Ec : count_loop lt eqb b base size size 0 (rev vs) = Ok (length (missing l vs))).
    { pose proof (@count_loop_ok V V X triv lt eqb id T (fun _ _ _ _ => True) b p s l base size) as CL. rewrite map_id in CL. specialize (CL M I Eb Es (rev vs) l [] 0).
      rewrite map_id, rev_involutive in CL. rewrite <- Es in CL. rewrite CL; auto.
      rewrite app_nil_r; auto. }
    rewrite Ec. cbn [xlift xbind]. rewrite Ei. reflexivity.
Qed.
End Fault.

Section SimSets.
Variable V W : Type.
Variable chk tv : bool.
Variable lt eqb : V -> V -> bool.
Notation X := (aoa V W * nat)%type.
Variable cb : callbacks V X.
Variable xcb : xcallbacks V X.
Hypothesis INC : forall n t, xcb_inc xcb n t = cb_inc cb n t.
Hypothesis EVS : forall n e x, sim (xcb_ev xcb n e x) (cb_ev cb e x).

Lemma sim_insertImpl n a e i v : sim (x_insertIntoSetImpl chk tv lt eqb xcb n a e i v) (insertIntoSetImpl chk tv lt eqb cb a e i v).
Proof using INC EVS.
  unfold x_insertIntoSetImpl, insertIntoSetImpl.
  set (K := fun r : buf V * X * bool => let '(b, x, k) := r in let a1 := set_vals b (fst x) in
    s <- size_ a1 i ;; a2 <- put_size a1 i (s + if k : bool then 1 else 0) ;; Ok (a2, k)).
  eapply sim_eq; [|eapply sim_bind with (k' := fun sp => r <- insert chk tv lt eqb cb (vals a) (a, e) (snd sp) (fst sp) v ;; K r); [apply sim_lift|]].
  2:{ intros n1 sp. eapply sim_bind; [apply sim_left, sim_insert1; auto|]. intros n2 [[b x] ok]. apply sim_lift. }
  rewrite !bind_bind. destruct (check_array chk a i) as [[]| |]; cbn [bind]; auto. rewrite ?bind_bind.
  destruct (sizeOfArray chk a i); cbn [bind]; auto. rewrite ?bind_bind.
  destruct (getSetValues chk a i); cbn [bind fst snd]; reflexivity.
Qed.
Lemma sim_insertsImpl n a e i vs : sim (x_insertsIntoSetImpl chk tv lt eqb xcb n a e i vs) (insertsIntoSetImpl chk tv lt eqb cb a e i vs).
Proof using INC EVS.
  unfold x_insertsIntoSetImpl, insertsIntoSetImpl.
  set (K := fun r : buf V * X * nat => let '(b, x, k) := r in let a1 := set_vals b (fst x) in
    s <- size_ a1 i ;; a2 <- put_size a1 i (s + k) ;; Ok (a2, k)).
  eapply sim_eq; [|eapply sim_bind with (k' := fun sp => r <- inserts chk tv lt eqb cb (vals a) (a, e) (snd sp) (fst sp) vs ;; K r); [apply sim_lift|]].
  2:{ intros n1 sp. eapply sim_bind; [apply sim_left, sim_inserts; auto|]. intros n2 [[b x] ok]. apply sim_lift. }
  rewrite !bind_bind. destruct (check_array chk a i) as [[]| |]; cbn [bind]; auto. rewrite ?bind_bind.
  destruct (sizeOfArray chk a i); cbn [bind]; auto. rewrite ?bind_bind.
  destruct (getSetValues chk a i); cbn [bind fst snd]; reflexivity.
Qed.
End SimSets.

Lemma sim_still V X (cb : callbacks V X) : (forall e x, cb_ev cb e x = Ok x) -> forall n e x, sim (xcb_ev (still cb) n e x) (cb_ev cb e x).
Proof. intros E n e x. cbn. rewrite E. reflexivity. Qed.

Lemma sim_tstep V (lt eqb : V -> V -> bool) dflt chk tv n c (a : aoa V unit) :
  sim (x_tstep chk tv lt eqb dflt n c a) (tstep chk tv true false BMalloc lt eqb dflt c a).
Proof.
  destruct c; cbn [x_tstep]; try apply sim_lift; cbn [tstep].
  - eapply sim_eq; [|eapply sim_bind; [apply sim_insertImpl with (cb := aos_cb V unit chk tv true false BMalloc i); auto; apply sim_still; reflexivity|]].
    2:{ intros n1 r. instantiate (1 := fun r => Ok (fst r, flag (snd r))). reflexivity. }
    unfold insertIntoSet. destruct (insertIntoSetImpl _ _ _ _ _ _ _ _ _) as [[]| |]; reflexivity.
  - apply sim_insertsImpl; auto. apply sim_still. reflexivity.
Qed.
Lemma sim_sstep V (lt eqb : V -> V -> bool) dflt chk tv n c (a : sarray V) :
  sim (x_sstep chk tv lt eqb dflt n c a) (sstep chk tv BMalloc lt eqb dflt c a).
Proof.
  destruct c; cbn [x_sstep]; try apply sim_lift; cbn [sstep]; unfold x_s_insert, s_insert, x_s_inserts, s_inserts; rewrite ?bind_bind.
  - eapply sim_bind; [apply sim_left, sim_insert1; [reflexivity|apply sim_still; reflexivity]|]. intros n1 [[b x] ok]. reflexivity.
  - eapply sim_bind; [apply sim_left, sim_inserts; [reflexivity|apply sim_still; reflexivity]|]. intros n1 [[b x] k]. reflexivity.
Qed.
