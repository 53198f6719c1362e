(** Property C84: what an exception leaves of an ArrayOfSets. Statements use AoSSpec, ThrowSortedSpec and ThrowSetsSpec only
    besides the modelled functions. *)
From Coq Require Import List Arith ZArith Lia Bool Sorting.Sorted.
From Verif Require Import Base Mem BufferManip SortedSpec SortedArray SortedArraySpec AoA AoASpec AoACopy AoS AoSSpec.
From Verif Require Import Throw ThrowAoA ThrowAoASpec ThrowSorted ThrowSortedSpec ThrowSets ThrowSetsSpec PropAoA PropAoS.
From Verif Require BaseProofs AoALayout AoAProofs AoAProofs4 SortedProofs SortedProofs3 SetsProofs SetsProofs2 AoSProofs ThrowProofs ThrowAoAProofs ThrowAoAProofs4
  ThrowAoAProofs5 ThrowSortedProofs2 ThrowSetsProofs ThrowSetsProofs2 ThrowSetsProofs3 PropThrowAoA.
Import ListNotations.
Set Implicit Arguments.
Unset Strict Implicit.

Notation dtor chk a := (aoa_dtor chk false true false BMalloc a).

Section Vocabulary.
Variable V : Type.
Variable lt eqb : V -> V -> bool.
Variable chk : bool.
(** An object that can be used shows the sets [M]: their sizes, their elements, contains(), and its destructor works. *)
Definition sound (t : aoa V unit) (M : list (list V)) : Prop :=
  dtor chk t = Ok tt /\ displays chk t M /\
  forall i l v, nth_error M i = Some l -> aos_contains chk lt eqb t i v = Ok (among eqb l v).
(** What is left of an object which showed [M]; when it is corrupt, the number of sets and their sizes, the elements of the
    other sets and those before the gap. *)
Definition left_behind (s : state_left) (t : aoa V unit) (M : list (list V)) (g : nat * nat) : Prop :=
  match s with
  | Usable => sound t M
  | Forgets => dtor chk t = Fault FLeak /\ displays chk t M
  | Corrupt => dtor chk t = Fault FDestroy /\ numArrays t = length M /\
      (forall i r, nth_error M i = Some r -> sizeOfArray chk t i = Ok (length r)) /\
      (forall i r j v, nth_error M i = Some r -> nth_error r j = Some v -> i <> fst g \/ j < snd g -> aoa_at chk t i j = Ok v)
  end.
End Vocabulary.

Section Help.
Variable V : Type.
Variable lt eqb : V -> V -> bool.
Variable dflt : V.
Variable chk : bool.
Hypothesis T : total_order lt eqb.
Notation trep := (@ThrowSetsProofs2.trep V lt).
Lemma trep_sound a M : trep a M -> sound lt eqb chk a M.
Proof.
  intros R. pose proof R as (L & H & EM & F).
  assert (AR : AoAProofs4.arep false true (fun _ : V => tt) a M (map (@AoALayout.wid V) L)) by (exists L; auto).
  split; [exact (AoAProofs4.dtor_ok chk AR)|]. split; [exact (rep_displays chk AR)|].
  intros i l v N. destruct (rep_shows T chk (ThrowSetsProofs2.trep_rep R)) as [_ S].
  destruct (S i (fun x => In x l) (map_nth_error (fun l x => In x l) i M N)) as (l' & _ & _ & _ & C). destruct (C v) as (b & E & B).
  rewrite E. f_equal. apply eq_true_iff_eq. rewrite B. unfold among. rewrite existsb_exists. split.
  - intros Hv. exists v. split; auto. apply (to_eq T). reflexivity.
  - intros (x & Hx & Ex). apply (to_eq T) in Ex. subst. exact Hx.
Qed.
Lemma left_behind_t st t M g : ThrowSetsProofs2.left_t chk lt st t M g -> left_behind lt eqb chk st t M g.
Proof. destruct st; cbn; auto. apply trep_sound. Qed.
Lemma new_trep n0 cap0 : exists a, new_aoa V unit chk false true false BMalloc n0 cap0 = Ok a /\ trep a (repeat [] n0).
Proof.
  destruct (@SetsProofs2.new_rep V V unit (fun v => v) (fun _ => tt) chk false true false lt n0 cap0) as (a & E & R). exists a. split; [exact E|].
  eapply (ThrowSetsProofs2.rep_trep T); [exact R| |].
  - unfold ThrowSetsProofs2.msets. clear. induction n0; simpl; constructor; auto. intros x. unfold none. tauto.
  - apply Forall_forall. intros l Hl. apply repeat_spec in Hl. subst. constructor.
Qed.
Lemma run_trep h : forall a M M' t, trep a M -> Forall (tallowed lt) h -> sets_run lt eqb h M = Some M' ->
  trun chk false true false BMalloc lt eqb dflt h a = Ok t -> trep t M'.
Proof.
  induction h as [|c h IH]; intros a M M' t R F E Et; cbn [sets_run trun] in *; [injection E as <-; injection Et as <-; exact R|].
  destruct (sets_after lt eqb c M) as [M1|] eqn:E1; [|discriminate].
  destruct (ThrowSetsProofs3.tstep_trep chk dflt T R (Forall_inv F) E1) as [([a1 r] & Ea & R1)|[_ Ea]]; rewrite Ea in Et; [|discriminate].
  cbn [bind fst] in *. apply Forall_inv_tail in F. eapply IH; eauto.
Qed.
Lemma tdriven_trep n0 cap0 h M a : Forall (tallowed lt) h -> sets_run lt eqb h (repeat [] n0) = Some M ->
  tdriven chk false lt eqb dflt n0 cap0 h = Ok a -> trep a M.
Proof.
  intros F E D. unfold tdriven in D. destruct (new_trep n0 cap0) as (a0 & E0 & R0). rewrite E0 in D. cbn [bind] in D.
  eapply run_trep; eauto.
Qed.
End Help.

(** C84: one call on an ArrayOfSets< T >, T not trivially copyable, that any history produced, the (n+1)-th copy of an
    element throwing. With enough budget it is the call of C28; otherwise the state left is the one specified. The moves of
    unused capacity found with C24 are the only other outcome. *)
Theorem C84_call : forall V (lt eqb : V -> V -> bool) (dflt : V) chk, total_order lt eqb ->
  forall n0 cap0 h M a c M' n, Forall (tallowed lt) (h ++ [c]) ->
  sets_run lt eqb h (repeat [] n0) = Some M -> tdriven chk false lt eqb dflt n0 cap0 h = Ok a -> sets_after lt eqb c M = Some M' ->
  (tstep chk false true false BMalloc lt eqb dflt c a = Fault FMove /\ x_tstep chk false lt eqb dflt n c a = XFault FMove) \/
  (tcost eqb c M <= n -> exists a' r, x_tstep chk false lt eqb dflt n c a = XOk (n - tcost eqb c M) (a', r) /\
     tstep chk false true false BMalloc lt eqb dflt c a = Ok (a', r) /\ sound lt eqb chk a' M') /\
  (n < tcost eqb c M -> exists t, x_tstep chk false lt eqb dflt n c a = XThrow Element t /\
     left_behind lt eqb chk (tleft lt eqb c M n) t M (tgap lt eqb c M n)).
Proof.
  intros V lt eqb dflt chk T n0 cap0 h M a c M' n F H E Y. apply Forall_app in F. destruct F as [F Fc]. pose proof (Forall_inv Fc) as Al.
  pose proof (tdriven_trep T F H E) as R.
  pose proof (ThrowSetsProofs3.x_tstep_ok chk dflt T n R Al Y) as S.
  pose proof (ThrowSetsProofs.sim_tstep lt eqb dflt chk false n c a) as SM.
  destruct S as [S|[_ EF]]; [right|left; rewrite EF in SM; auto].
  destruct (x_tstep chk false lt eqb dflt n c a) as [n' [a' r]|w t|f]; cbn [ThrowProofs.xspec] in S; [| |contradiction].
  - destruct S as [-> E']. split; [|lia]. intros _. exists a', r. rewrite Nat.add_sub. split; [reflexivity|]. split; [exact E'|].
    destruct (ThrowSetsProofs3.tstep_trep chk dflt T R Al Y) as [(r1 & E1 & R1)|[_ E1]]; rewrite E' in E1; [|discriminate]. injection E1 as <-.
    apply trep_sound; auto.
  - destruct S as (-> & Ln & LA). split; [lia|]. intros _. exists t. split; [reflexivity|]. apply left_behind_t; auto.
Qed.
Print Assumptions C84_call.

(** C84: the lists of the specification are the sets of C28. *)
Theorem C84_contents : forall V (lt eqb : V -> V -> bool), total_order lt eqb ->
  forall c M, Forall (increasing lt) M ->
  match sets_after lt eqb c M, set_step lt c (map (fun l x => In x l) M) with
  | Some M', Some N => Forall2 (is_set lt) M' N
  | None, None => True
  | _, _ => False
  end.
Proof.
  intros V lt eqb T c M F.
  assert (F' : Forall (fun l => StronglySorted (fun x y => lt x y = true) l) M).
  { eapply Forall_impl; [|exact F]. intros l Hl. apply SortedProofs.increasing_strong. exact Hl. }
  fold (ThrowSetsProofs2.msets M). destruct (sets_after lt eqb c M) as [M'|] eqn:E.
  - destruct (ThrowSetsProofs3.sets_after_step T F' E) as (N & -> & Q & I). clear E. revert N Q. induction I as [|l M1 Hl I IH]; intros N Q; inversion Q; subst; constructor; auto.
    split; [apply SortedProofs.increasing_strong; exact Hl|]. intros y. match goal with H : forall z, _ <-> In z l |- _ => symmetry; apply H end.
  - destruct (ThrowSetsProofs3.sets_after_none lt eqb c M) as [H _]. rewrite (H E). exact I.
Qed.
Print Assumptions C84_contents.

(** C84: a program that catches every exception and goes on while the object is usable. *)
Theorem C84_program : forall V (lt eqb : V -> V -> bool) (dflt : V) chk, total_order lt eqb ->
  forall n0 cap0 h M s, Forall (fun nc => tallowed lt (snd nc)) h -> tfate lt eqb h (repeat [] n0) = Some (M, s) ->
  exists a, new_aoa V unit chk false true false BMalloc n0 cap0 = Ok a /\
    ((exists t, x_trun chk false lt eqb dflt h a = Ok t /\
        match s with
        | Usable => sound lt eqb chk t M
        | Forgets => dtor chk t = Fault FLeak /\ displays chk t M
        | Corrupt => dtor chk t = Fault FDestroy
        end) \/
     x_trun chk false lt eqb dflt h a = Fault FMove).
Proof.
  intros V lt eqb dflt chk T n0 cap0 h M s F E. destruct (new_trep chk T n0 cap0) as (a & Ea & R). exists a. split; [exact Ea|].
  destruct (ThrowSetsProofs3.x_trun_ok chk dflt T R F E) as [(t & Et & S)|[_ Y]]; [left|right; exact Y].
  exists t. split; [exact Et|]. destruct s; cbn in S; auto. apply trep_sound; auto.
Qed.
Print Assumptions C84_program.

Definition x_tdrive {V} (lt eqb : V -> V -> bool) (chk : bool) (dflt : V) (n0 cap0 : nat) (h : list (nat * tcall V)) : outcome (aoa V unit) :=
  a <- new_aoa V unit chk false true false BMalloc n0 cap0 ;; x_trun chk false lt eqb dflt h a.
Example C84_case :
  let f := tfate Nat.ltb Nat.eqb in
  let d h := t <- x_tdrive Nat.ltb Nat.eqb true 0 2 3 h ;; Ok (skipn 3 (vals t)) in
  let h1 := [(9, TInsert 1 5); (0, TInsert 1 7); (9, TInsert 1 7); (0, TInsert 1 5); (9, TInserts 1 [5;8])] in
  let h2 := [(9, TInsert 1 5); (0, TInsert 1 3); (9, TInsert 1 8)] in
  let h3 := [(9, TInsert 1 5); (1, TInserts 1 [1;9])] in
  let h4 := [(9, TInsert 1 5); (1, TInserts 1 [8;9])] in
  f h1 [[]; []] = Some ([[]; [5;7;8]], Usable) /\ d h1 = Ok [Obj 5; Obj 7; Obj 8] /\
  f h2 [[]; []] = Some ([[]; [5]], Corrupt) /\ d h2 = Ok [Raw; Obj 5; Raw] /\
  f h3 [[]; []] = Some ([[]; [5]], Corrupt) /\ d h3 = Ok [Raw; Obj 5; Obj 9] /\
  f h4 [[]; []] = Some ([[]; [5]], Forgets) /\ d h4 = Ok [Obj 5; Raw; Obj 9].
Proof. vm_compute. repeat split; reflexivity. Qed.

(** The program goes on with the object the exception left, which may have more room than before. *)
Example C84_room_case :
  (t <- x_tdrive Nat.ltb Nat.eqb true 0 1 0 [(0, TInsert 0 5)] ;; capacityOfArray true t 0) = Ok 2.
Proof. vm_compute. reflexivity. Qed.

(** C84: until something is thrown the call does exactly what the call of C28 does, and an error handler that throws is called
    exactly when the one of C28 is: any object, any arguments, any T. *)
Theorem C84_until_thrown : forall V (lt eqb : V -> V -> bool) (dflt : V) chk tv n c a,
  match x_tstep chk tv lt eqb dflt n c a with
  | XOk _ r => tstep chk tv true false BMalloc lt eqb dflt c a = Ok r
  | XThrow Error _ => tstep chk tv true false BMalloc lt eqb dflt c a = Abort
  | XThrow Element _ => True
  | XFault f => tstep chk tv true false BMalloc lt eqb dflt c a = Fault f
  end.
Proof. intros. apply ThrowSetsProofs.sim_tstep. Qed.
Print Assumptions C84_until_thrown.

(** C84: the insertions of the view, into a set with room for the values. *)
Theorem C84_view : forall V (lt eqb : V -> V -> bool) (dflt : V) chk, total_order lt eqb ->
  forall n0 cap0 h M a i l cap vs M' n, Forall (tallowed lt) h -> increasing lt vs ->
  sets_run lt eqb h (repeat [] n0) = Some M -> tdriven chk false lt eqb dflt n0 cap0 h = Ok a ->
  nth_error M i = Some l -> capacityOfArray chk a i = Ok cap ->
  let c := TInserts i vs in sets_after lt eqb c M = Some M' ->
  length l + tcost eqb c M <= cap ->
  (tcost eqb c M <= n -> exists a', x_v_insertsIntoSet chk false lt eqb n a i vs = XOk (n - tcost eqb c M) (a', tcost eqb c M) /\
     v_insertsIntoSet chk false lt eqb a i vs = Ok (a', tcost eqb c M) /\
     sound lt eqb chk a' M' /\ capacityOfArray chk a' i = Ok cap) /\
  (n < tcost eqb c M -> exists t, x_v_insertsIntoSet chk false lt eqb n a i vs = XThrow Element t /\
     left_behind lt eqb chk (tleft lt eqb c M n) t M (tgap lt eqb c M n)).
Proof.
  intros V lt eqb dflt chk T n0 cap0 h M a i l cap vs M' n F Iv H E N C c Y HC.
  unfold sets_after, c in Y. cbn [on_set] in Y. unfold on_elem in Y. rewrite N in Y. injection Y as <-. cbn [contents_after].
  pose proof (tdriven_trep T F H E) as R. pose proof R as (L & A & EM & Fi).
  destruct (ThrowSetsProofs3.row_split N EM) as (P & k & B & -> & <-).
  assert (I : StronglySorted (fun x y => lt x y = true) l) by (rewrite Forall_forall in Fi; apply Fi; eapply nth_error_In; eauto).
  pose proof A as [IK _]. rewrite (SetsProofs.row_capacity chk IK) in C. injection C as <-.
  apply SortedProofs.increasing_strong in Iv. unfold tcost, tleft, tgap, c in *. cbn [on_set] in *. rewrite (nth_error_nth M _ [] N) in *.
  pose proof (@AoSProofs.view_inc_ok V unit (fun _ => tt) chk false true a P l k B (scost eqb (SInsertRange vs) l) A ltac:(lia)) as VI.
  pose proof (@ThrowSetsProofs2.x_inss_ok V chk lt eqb T (view_cb V unit chk (length P)) (fun _ _ => eq_refl) a P l k B vs n _ A I Iv (or_introl VI)) as S.
  assert (EQ : scost eqb (SInsertRange vs) l = SortedProofs2.absent eqb (fun v => v) l vs).
  { unfold scost. rewrite (ThrowSortedProofs2.new_missing T l vs : asked eqb (SInsertRange vs) l = _). reflexivity. }
  assert (VO : AoALayout.okb true (insertsIntoSetImpl chk false lt eqb (view_cb V unit chk (length P)) a 0 (length P) vs)
     (fun r => snd r = SortedProofs2.absent eqb (fun v => v) l vs /\
        AoAProofs.aok (fun v => v) (fun _ => tt) false true false (fst r) (P ++ (fold_right (SortedProofs2.pinsert lt eqb (fun v => v)) l vs, length l + k - length (fold_right (SortedProofs2.pinsert lt eqb (fun v => v)) l vs)) :: B))).
  { eapply (@AoSProofs.inss_plain V unit (fun _ => tt) chk false true lt eqb T (view_cb V unit chk (length P)) (fun _ _ => eq_refl) a P l k B vs (length l + k) true A I Iv).
    cbn zeta. rewrite <- EQ. left. exact VI. }
  unfold x_v_insertsIntoSet, v_insertsIntoSet.
  destruct S as [S|[_ EF]].
  - destruct (x_insertsIntoSetImpl chk false lt eqb (still (view_cb V unit chk (length P))) n a 0 (length P) vs) as [n' r|w t|f];
      cbn [ThrowProofs.xspec] in S; [| |contradiction].
    + destruct S as [-> E']. split; [|lia]. intros _. rewrite Nat.add_sub. rewrite E' in VO.
      destruct VO as [(r' & Er' & Hr & A')|[? _]]; [|discriminate]. injection Er' as <-. destruct r as [a' r]. cbn [fst snd] in *. subst r.
      exists a'. rewrite <- EQ. split; [reflexivity|]. split; [rewrite E', EQ; reflexivity|].
      assert (EL : length (fold_right (SortedProofs2.pinsert lt eqb (fun v => v)) l vs) = length l + scost eqb (SInsertRange vs) l).
      { rewrite EQ. apply (@AoSProofs.pinserts_len V lt eqb T l vs I Iv). }
      split.
      * apply trep_sound; auto. eexists. split; [exact A'|]. rewrite map_app. cbn [map fst].
        assert (EP : fold_right (SortedProofs2.pinsert lt eqb (fun v => v)) l vs = fold_right (put lt) l vs).
        { destruct (@ThrowSortedProofs2.contents_set V lt eqb T (SInsertRange vs) l I) as [I1 S1].
          assert (RS : SetsProofs2.rowset (fun v => v) lt (l, 0) (fun x => In x l)) by (split; [exact I|simpl; tauto]).
          destruct (@AoSProofs.rowset_sum V unit (fun _ => tt) lt eqb T l 0 0 _ vs RS Iv) as [I2 S2]. cbn [fst] in *.
          eapply (CopyMoveProofs.incr_unique (lt := lt) (eqb := eqb)); eauto. intros x. rewrite S2. cbn [contents_after] in S1. rewrite S1. reflexivity. }
        rewrite EP in *. split.
        -- rewrite <- EM. rewrite map_app. cbn [map fst]. unfold put_at. rewrite firstn_app, map_length, Nat.sub_diag, firstn_O, app_nil_r.
           rewrite firstn_all2 by (rewrite map_length; lia). rewrite skipn_app, map_length. rewrite skipn_all2 by (rewrite map_length; lia).
           replace (length P + 1 - length P) with 1 by lia. reflexivity.
        -- apply ThrowSetsProofs3.put_incrs; [exact Fi|]. exact (proj1 (@ThrowSortedProofs2.contents_set V lt eqb T (SInsertRange vs) l I)).
      * destruct A' as [I' _]. rewrite (SetsProofs.row_capacity chk I'). f_equal. lia.
    + destruct S as (-> & Hn & r & t' & -> & Tn). split; [lia|]. intros _. exists (put_back t'). split; [reflexivity|].
      rewrite <- EM in Fi |- *. destruct (ThrowSetsProofs2.torn_left_t chk T I Fi Hn Tn) as (v' & Nv & Lt). rewrite Nv. apply left_behind_t; auto.
  - exfalso. pose proof (@ThrowSetsProofs.sim_insertsImpl V unit chk false lt eqb (view_cb V unit chk (length P)) (still (view_cb V unit chk (length P)))
      (fun _ _ => eq_refl) (@ThrowSetsProofs.sim_still _ _ (view_cb V unit chk (length P)) (fun _ _ => eq_refl)) n a 0 (length P) vs) as SM.
    rewrite EF in SM. cbn in SM. rewrite SM in VO. destruct VO as [(? & ? & _)|[? _]]; discriminate.
Qed.
Print Assumptions C84_view.

(** C84: an error handler that throws (system.hpp:68), bounds checks on: a rejected index leaves the object as it was. *)
Theorem C84_errors : forall V (lt eqb : V -> V -> bool) (dflt : V), total_order lt eqb ->
  forall n0 cap0 h M a c n, Forall (tallowed lt) (h ++ [c]) ->
  sets_run lt eqb h (repeat [] n0) = Some M -> tdriven true false lt eqb dflt n0 cap0 h = Ok a -> sets_after lt eqb c M = None ->
  x_tstep true false lt eqb dflt n c a = XThrow Error a \/ x_tstep true false lt eqb dflt n c a = XFault FMove.
Proof.
  intros V lt eqb dflt T n0 cap0 h M a c n F H E Y. apply Forall_app in F. destruct F as [F Fc]. pose proof (Forall_inv Fc) as Al.
  pose proof (tdriven_trep T F H E) as R. apply ThrowSetsProofs3.sets_after_none in Y.
  pose proof (@AoSProofs.tstep_ok V unit (fun _ => tt) true false true lt eqb T dflt c a _ (ThrowSetsProofs2.trep_rep R) Al) as S.
  rewrite Y in S. specialize (S eq_refl).
  assert (Bad : forall i, nth_error (ThrowSetsProofs2.msets M) i = None -> check_array true a i = Abort)
    by (intros i Ni; exact (SetsProofs2.bad_check (eq_refl true) (ThrowSetsProofs2.trep_rep R) Ni)).
  assert (OE : forall i g, on_elem (ThrowSetsProofs2.msets M) i g = None -> check_array true a i = Abort).
  { intros i g G. apply Bad. unfold on_elem in G. destruct (nth_error (ThrowSetsProofs2.msets M) i); [discriminate|reflexivity]. }
  destruct c; cbn [x_tstep];
    try (destruct S as [S|[_ S]]; rewrite S; [left|right]; reflexivity).
  - left. unfold x_insertIntoSet, x_insertIntoSetImpl. rewrite (OE i _ Y). reflexivity.
  - left. unfold x_insertsIntoSet, x_insertsIntoSetImpl. rewrite (OE i _ Y). reflexivity.
Qed.
Print Assumptions C84_errors.

(** C84: copy assignment and copy constructor are those of ArrayOfArrays (C82): whichever element throws, the destructor
    destroys places that hold no object. *)
Theorem C84_copy_refuted : forall V (lt eqb : V -> V -> bool) (dflt : V) chk, total_order lt eqb ->
  forall n1 cap1 h1 M1 a n2 cap2 h2 M2 b a' n, Forall (tallowed lt) h1 -> Forall (tallowed lt) h2 ->
  sets_run lt eqb h1 (repeat [] n1) = Some M1 -> tdriven chk false lt eqb dflt n1 cap1 h1 = Ok a ->
  sets_run lt eqb h2 (repeat [] n2) = Some M2 -> tdriven chk false lt eqb dflt n2 cap2 h2 = Ok b ->
  setEqualTo chk false true false a b = Ok a' ->
  let k := length (concat M2) in
  (k <= n -> x_setEqualTo chk false n a b = XOk (n - k) a') /\
  (n < k -> exists t, x_setEqualTo chk false n a b = XThrow Element t /\ dtor chk t = Fault FDestroy /\ numArrays t = length M2).
Proof.
  intros V lt eqb dflt chk T n1 cap1 h1 M1 a n2 cap2 h2 M2 b a' n F1 F2 H1 E1 H2 E2 E k.
  destruct (tdriven_trep T F1 H1 E1) as (L1 & A1 & _ & _). destruct (tdriven_trep T F2 H2 E2) as (L2 & A2 & EM & _).
  pose proof (ThrowAoAProofs4.x_setEqualTo_ok n (AoAProofs.aok_pok A1) A2 E) as S. rewrite EM in S. fold k in S.
  destruct (x_setEqualTo chk false n a b) as [n' x|w t|f]; cbn [ThrowProofs.xspec] in S; [| |contradiction].
  - destruct S as [-> ->]. split; [|lia]. intros _. rewrite Nat.add_sub. reflexivity.
  - destruct S as (-> & Hn & D & N & _). split; [lia|]. intros _. exists t. split; [reflexivity|]. split; [exact D|].
    rewrite N, <- EM, map_length. reflexivity.
Qed.
Print Assumptions C84_copy_refuted.
Example C84_view_case :
  let mk h := match tdriven true false Nat.ltb Nat.eqb 0 2 3 h with Ok a => a | _ => null_aoa nat unit BMalloc end in
  let a := mk [TInserts 0 [4;6]] in
  sets_run Nat.ltb Nat.eqb [TInserts 0 [4;6]] [[]; []] = Some [[4;6]; []] /\ capacityOfArray true a 0 = Ok 3 /\
  match x_v_insertsIntoSet true false Nat.ltb Nat.eqb 0 a 0 [5;6] with XThrow Element t => Some (vals t) | _ => None end =
    Some [Obj 4; Raw; Obj 6; Raw; Raw; Raw] /\
  x_tstep true false Nat.ltb Nat.eqb 0 0 (TInsert 2 5) a = XThrow Error a.
Proof. vm_compute. repeat split; reflexivity. Qed.
