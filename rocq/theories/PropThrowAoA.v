(** Property C82: what an exception leaves of an ArrayOfArrays. Statements use AoASpec and ThrowAoASpec only besides
    the modelled functions. *)
From Coq Require Import List Arith ZArith Lia Bool.
From Verif Require Import Base Mem BufferManip AoA AoASpec AoACopy Throw ThrowAoA ThrowAoASpec PropAoA.
From Verif Require Import MemProofs.
From Verif Require BaseProofs AoALayout AoACopyProofs AoAProofs AoAProofs3 AoAProofs4 ThrowProofs ThrowAoAProofs ThrowAoAProofs3 ThrowAoAProofs4 ThrowAoAProofs5.
Import ListNotations.
Set Implicit Arguments.
Unset Strict Implicit.

Notation dtor chk a := (aoa_dtor chk false true false BMalloc a).

(** What is left: contents [N] and capacities [K] when the object is usable, contents [N] when it forgets objects; when
    it is corrupt, the number of arrays and the sizes of [M], the elements of the other arrays and those before the
    gap. *)
Definition left_behind {V} (chk : bool) (s : state_left) (t : aoa V unit) (M N : list (list V)) (K : list nat) (g : nat * nat) : Prop :=
  match s with
  | Usable => dtor chk t = Ok tt /\ displays chk t N /\ forall i k, nth_error K i = Some k -> capacityOfArray chk t i = Ok k
  | Forgets => dtor chk t = Fault FLeak /\ displays chk t N
  | Corrupt => dtor chk t = Fault FDestroy /\ numArrays t = length M /\
      (forall i r, nth_error M i = Some r -> sizeOfArray chk t i = Ok (length r)) /\
      (forall i r j v, nth_error M i = Some r -> nth_error r j = Some v -> i <> fst g \/ j < snd g -> aoa_at chk t i j = Ok v)
  end.

Section Help.
Variable V : Type.
Notation arep := (@AoAProofs4.arep V unit).
Notation fu := (fun _ : V => tt).
Lemma driven_arep chk tv (dflt : V) n0 cap0 h M a : vec_run dflt h (repeat [] n0) = Some M -> driven chk tv dflt n0 cap0 h = Ok a ->
  arep tv true fu a M (cap_run dflt h (repeat [] n0) (repeat cap0 n0)).
Proof.
  intros H E. pose proof (driven_rep chk tv dflt n0 cap0 h) as D. rewrite H, E in D. destruct D as [(a0 & E0 & R)|[_ E0]]; [|discriminate].
  injection E0 as <-. exact R.
Qed.
Lemma left_behind_as chk s (t : aoa V unit) M N K g : ThrowAoAProofs3.left_as chk s t M N K g -> left_behind chk s t M N K g.
Proof.
  destruct s; cbn; auto. intros R. split; [exact (AoAProofs4.dtor_ok chk R)|]. split; [exact (rep_displays chk R)|].
  intros i k Hk. exact (AoAProofs4.rep_cap chk R Hk).
Qed.
End Help.

(** C82: one call on an ArrayOfArrays< T >, T not trivially copyable, that any history produced, the (n+1)-th construction
    or assignment of an element throwing. With enough budget it is the call of C22; otherwise the state left is the one
    specified. The moves of unused capacity found with C24 are the only other outcome. *)
Theorem C82_call : forall V (dflt : V) chk n0 cap0 h M a c M' n,
  vec_run dflt h (repeat [] n0) = Some M -> driven chk false dflt n0 cap0 h = Ok a -> vec_step dflt c M = Some M' ->
  let K := cap_run dflt h (repeat [] n0) (repeat cap0 n0) in
  (full M K = false /\ astep chk false true false BMalloc dflt c a = Fault FMove /\ x_astep chk false dflt n c a = XFault FMove) \/
  (acost c M <= n -> exists a', x_astep chk false dflt n c a = XOk (n - acost c M) a' /\
     astep chk false true false BMalloc dflt c a = Ok a' /\ displays chk a' M') /\
  (n < acost c M -> exists t, x_astep chk false dflt n c a = XThrow Element t /\
     left_behind chk (aleft c M n) t M (acontents c M n) (cap_step c M K) (gap_at c)).
Proof.
  intros V dflt chk n0 cap0 h M a c M' n H E Y K. pose proof (driven_arep H E) as R. fold K in R.
  pose proof (@ThrowAoAProofs3.x_step_ok V chk dflt c a M K M' n R Y) as S.
  pose proof (@AoAProofs4.step_ok V unit chk false true (fun _ => tt) dflt c a M K R) as S0. rewrite Y in S0.
  pose proof (@ThrowAoAProofs5.sim_step V chk false dflt n c a) as SM.
  destruct S as [S|[F EF]]; [right|left; rewrite EF in SM; auto].
  destruct (x_astep chk false dflt n c a) as [n' a'|w t|f]; cbn [ThrowProofs.xspec] in S; [| |contradiction].
  - destruct S as [-> E']. split; [|lia]. intros _. exists a'. rewrite Nat.add_sub. split; [reflexivity|]. split; [exact E'|].
    destruct S0 as [(a1 & E1 & R1)|[_ E1]]; rewrite E' in E1; [|discriminate]. injection E1 as <-. exact (rep_displays chk R1).
  - destruct S as (-> & Ln & LA). split; [lia|]. intros _. exists t. split; [reflexivity|]. apply left_behind_as. exact LA.
Qed.
Print Assumptions C82_call.
Example C82_case :
  (* each kind of state is met; resizeArray, unlike Array::resize, stores the size last *)
  let M := [[1;2;3]; [4]] in
  aleft (AEmplaceBack 0 9) M 0 = Usable /\ aleft (AEmplace 0 1 9) M 0 = Corrupt /\ aleft (AEmplace 0 3 9) M 0 = Usable /\
  aleft (AResizeArray 0 6 9) M 2 = Forgets /\ aleft (AInsertInto 0 1 [7;8;9]) M 1 = Corrupt /\
  aleft (AInsertInto 0 1 [7;8;9]) M 2 = Forgets /\ acontents (AInsertInto 0 1 [7;8;9]) M 2 = [[1;7;8]; [4]] /\
  aleft (AInsertArray 1 [7;8]) M 0 = Usable /\ acontents (AInsertArray 1 [7;8]) M 0 = [[1;2;3]; []; [4]] /\
  (a <- driven true false 0 2 0 [AAppendTo 0 [1;2;3]; ACompress] ;;
   match x_astep true false 0 1 (AInsertInto 0 1 [7;8;9]) a with XThrow Element t => Ok (vals t) | _ => Abort end)
   = Ok [Obj 1; Obj 7; Raw; Raw; Obj 2; Obj 3; Raw; Raw; Raw; Raw; Raw; Raw].
Proof. vm_compute. repeat split. Qed.

(** C82: a program that catches every exception and goes on while the object is usable. *)
Theorem C82_program : forall V (dflt : V) chk n0 cap0 h M s,
  afate dflt h (repeat [] n0) = Some (M, s) ->
  exists a, new_aoa V unit chk false true false BMalloc n0 cap0 = Ok a /\
    ((exists t, x_arun chk false dflt h a = Ok t /\
        match s with
        | Usable => dtor chk t = Ok tt /\ displays chk t M
        | Forgets => dtor chk t = Fault FLeak /\ displays chk t M
        | Corrupt => dtor chk t = Fault FDestroy
        end) \/
     (afull dflt h (repeat [] n0) (repeat cap0 n0) = false /\ x_arun chk false dflt h a = Fault FMove)).
Proof.
  intros V dflt chk n0 cap0 h M s F. destruct (@AoAProofs4.new_ok V unit chk false true (fun _ => tt) n0 cap0) as (a & E & R).
  exists a. split; [exact E|]. destruct (ThrowAoAProofs3.x_run_ok chk R F) as [(t & Et & S)|[X Y]]; [left|right; auto].
  exists t. split; [exact Et|]. destruct s; cbn in S; auto. destruct S as (K & RK).
  split; [exact (AoAProofs4.dtor_ok chk RK)|exact (rep_displays chk RK)].
Qed.
Print Assumptions C82_program.
Definition x_drive {V} (chk : bool) (dflt : V) (n0 cap0 : nat) (h : list (nat * acall V)) : outcome (aoa V unit) :=
  a <- new_aoa V unit chk false true false BMalloc n0 cap0 ;; x_arun chk false dflt h a.
Example C82_program_case :
  let h1 := [(9, AAppendFrom [1;2]); (9, AEmplaceBack 0 5); (0, AAppendFrom [3;4]); (9, AEmplaceBack 1 5); (0, AResizeArray 1 4 7)] in
  let h2 := [(9, AAppendFrom [1;2]); (1, AAppendTo 0 [3;4]); (9, AEmplaceBack 0 5)] in
  let h3 := [(9, AAppendFrom [1;2]); (0, AEmplace 0 1 5); (9, AEmplaceBack 0 5)] in
  afate 0 h1 [] = Some ([[1;2;5]; [5]], Usable) /\ (t <- x_drive true 0 0 0 h1 ;; Ok (vals t)) = Ok [Obj 1; Obj 2; Obj 5; Raw; Obj 5; Raw; Raw; Raw] /\
  afate 0 h2 [] = Some ([[1;2]], Forgets) /\ (t <- x_drive true 0 0 0 h2 ;; Ok (vals t)) = Ok [Obj 1; Obj 2; Obj 3; Raw; Raw; Raw; Raw; Raw] /\
  afate 0 h3 [] = Some ([[1;2]], Corrupt) /\ (t <- x_drive true 0 0 0 h3 ;; Ok (vals t)) = Ok [Obj 1; Raw; Obj 2; Raw; Raw; Raw; Raw; Raw].
Proof. vm_compute. repeat split; reflexivity. Qed.

(** C82: until something is thrown the call does exactly what the call of C22 does, and an error handler that throws is
    called exactly when the one of C22 is: any object, any arguments, any T. *)
Theorem C82_until_thrown : forall V (dflt : V) chk tv n c a,
  match x_astep chk tv dflt n c a with
  | XOk _ a' => astep chk tv true false BMalloc dflt c a = Ok a'
  | XThrow Error _ => astep chk tv true false BMalloc dflt c a = Abort
  | XThrow Element _ => True
  | XFault f => astep chk tv true false BMalloc dflt c a = Fault f
  end.
Proof. intros. apply ThrowAoAProofs5.sim_step. Qed.
Print Assumptions C82_until_thrown.

(** C82: an error handler that throws (system.hpp:68), bounds checks on, any T: a rejected argument leaves the contents as
    they were and the object usable. *)
Theorem C82_errors : forall V (dflt : V) tv n0 cap0 h M a c n,
  vec_run dflt h (repeat [] n0) = Some M -> driven true tv dflt n0 cap0 h = Ok a -> vec_step dflt c M = None ->
  let K := cap_run dflt h (repeat [] n0) (repeat cap0 n0) in
  (exists t, x_astep true tv dflt n c a = XThrow Error t /\ displays true t M /\ aoa_dtor true tv true false BMalloc t = Ok tt) \/
  ((tv || full M K)%bool = false /\ x_astep true tv dflt n c a = XFault FMove).
Proof.
  intros V dflt tv n0 cap0 h M a c n H E Y K. pose proof (driven_arep H E) as R.
  destruct (@ThrowAoAProofs3.x_error_ok V dflt tv c a M _ n R Y) as [(t & K' & Et & Rt)|X]; [left|right; exact X].
  exists t. split; [exact Et|]. split; [exact (rep_displays true Rt)|exact (AoAProofs4.dtor_ok true Rt)].
Qed.
Print Assumptions C82_errors.
Example C82_errors_case :
  vec_step 0 (AEmplace 0 3 9) [[1;2]] = None /\
  (a <- driven true false 0 0 0 [AAppendFrom [1;2]] ;;
   match x_astep true false 0 0 (AEmplace 0 3 9) a with XThrow Error t => Ok (vals t) | _ => Abort end) = Ok [Obj 1; Obj 2; Raw; Raw; Raw; Raw; Raw; Raw].
Proof. vm_compute. split; reflexivity. Qed.

(** C82: copy assignment a = b, when without an exception it ends normally. The number of arrays, offsets and sizes are
    those of b before the first element is copied: whichever element throws, the destructor of a destroys places that hold
    no object. *)
Theorem C82_copy_refuted : forall V (dflt : V) chk n1 cap1 h1 M1 a n2 cap2 h2 M2 b a' n,
  vec_run dflt h1 (repeat [] n1) = Some M1 -> driven chk false dflt n1 cap1 h1 = Ok a ->
  vec_run dflt h2 (repeat [] n2) = Some M2 -> driven chk false dflt n2 cap2 h2 = Ok b ->
  setEqualTo chk false true false a b = Ok a' ->
  let k := length (concat M2) in
  (k <= n -> x_setEqualTo chk false n a b = XOk (n - k) a') /\
  (n < k -> exists t, x_setEqualTo chk false n a b = XThrow Element t /\ dtor chk t = Fault FDestroy /\ numArrays t = length M2 /\
     (forall i r, nth_error M2 i = Some r -> sizeOfArray chk t i = Ok (length r)) /\
     (* only the first n elements of b are there *)
     (forall i r j v, nth_error M2 i = Some r -> nth_error r j = Some v -> length (concat (firstn i M2)) + j < n -> aoa_at chk t i j = Ok v)).
Proof.
  intros V dflt chk n1 cap1 h1 M1 a n2 cap2 h2 M2 b a' n H1 E1 H2 E2 E k.
  destruct (driven_arep H1 E1) as (L1 & A1 & _ & _). destruct (driven_arep H2 E2) as (L2 & A2 & EM & _).
  pose proof (ThrowAoAProofs4.x_setEqualTo_ok n (AoAProofs.aok_pok A1) A2 E) as S. rewrite EM in S. fold k in S.
  destruct (x_setEqualTo chk false n a b) as [n' x|w t|f]; cbn [ThrowProofs.xspec] in S; [| |contradiction].
  - destruct S as [-> ->]. split; [|lia]. intros _. rewrite Nat.add_sub. reflexivity.
  - destruct S as (-> & Hn & D & N & Z & R & _). split; [lia|]. intros _. exists t. split; [reflexivity|]. split; [exact D|]. split; [|split].
    + rewrite N, <- EM, map_length. reflexivity.
    + intros i r Hr. rewrite <- EM, nth_error_map in Hr. destruct (nth_error L2 i) as [x|] eqn:Ex; [|discriminate]. injection Hr as <-. exact (Z _ _ Ex).
    + intros i r j v Hr Hv Hc. rewrite <- EM, nth_error_map in Hr. destruct (nth_error L2 i) as [x|] eqn:Ex; [|discriminate]. injection Hr as <-.
      apply (R i x j v Ex Hv). rewrite <- EM in Hc. rewrite firstn_map in Hc. exact Hc.
Qed.
Print Assumptions C82_copy_refuted.

Lemma first_element {V} (M : list (list V)) : concat M <> [] ->
  exists i r v, nth_error M i = Some (v :: r) /\ concat (firstn i M) = [].
Proof.
  induction M as [|[|v r] M IH]; intros H; [contradiction H; reflexivity| |].
  - destruct (IH H) as (i & r & v & N & C). exists (S i), r, v. auto.
  - exists 0, r, v. auto.
Qed.
Lemma read_leaks {V} chk (t : aoa V unit) i j v : aoa_at chk t i j = Ok v -> release false (vals t) = Fault FLeak.
Proof.
  unfold aoa_at. destruct (slot chk t i j) as [k| |]; try discriminate. cbn [bind]. unfold rd, aget.
  destruct (nth_error (vals t) k) as [c|] eqn:N; try discriminate. cbn [bind]. destruct c as [| |]; try discriminate. intros _.
  unfold release. cbn [orb]. replace (forallb (@is_raw V) (vals t)) with false; [reflexivity|]. symmetry.
  apply not_true_is_false. intros F. rewrite forallb_forall in F. apply nth_error_In in N. specialize (F _ N). discriminate.
Qed.

(** C82: the copy constructor. It does not delegate, so no destructor runs on what it built: the objects copied so far
    and the three allocations are lost. *)
Theorem C82_copy_constructor_refuted : forall V (dflt : V) chk n0 cap0 h M b n,
  vec_run dflt h (repeat [] n0) = Some M -> driven chk false dflt n0 cap0 h = Ok b ->
  let k := length (concat M) in
  (k <= n -> exists a, x_copy_ctor chk false n b = XOk (n - k) a /\ displays chk a M) /\
  (n < k -> exists t, x_copy_ctor chk false n b = XThrow Element t /\
     length M < length (offs t) /\ length M <= length (szs t) /\ k <= length (vals t) /\
     (0 < n -> release false (vals t) = Fault FLeak)).
Proof.
  intros V dflt chk n0 cap0 h M b n H E k. destruct (driven_arep H E) as (L & A & EM & _).
  pose proof (@ThrowAoAProofs4.null_pok0 V) as NP.
  pose proof (@AoACopyProofs.setEqualTo_ok V V unit (fun v => v) (fun _ => tt) chk false true false _ _ _ _ NP A) as Q.
  assert (F : AoACopyProofs.roomy false (length (vals (null_aoa V unit BMalloc))) (AoACopyProofs.stale [] L) (AoALayout.total L) = true).
  { unfold AoACopyProofs.roomy, AoACopyProofs.stale. cbn. rewrite orb_true_r. reflexivity. }
  rewrite F in Q. cbn [negb orb] in Q. destruct Q as (a & Ea & Aa).
  pose proof (ThrowAoAProofs4.x_setEqualTo_ok n NP A Ea) as S. rewrite EM in S. fold k in S. unfold x_copy_ctor.
  destruct (x_setEqualTo chk false n (null_aoa V unit BMalloc) b) as [n' x|w t|f]; cbn [ThrowProofs.xspec] in S; [| |contradiction].
  - destruct S as [-> ->]. split; [|lia]. intros _. exists a. rewrite Nat.add_sub. split; [reflexivity|].
    apply (rep_displays chk (tv := false) (K := map (@AoALayout.wid V) L)). exists L. auto.
  - destruct S as (-> & Hn & _ & _ & _ & R & C1 & C2 & C3). split; [lia|]. intros _. exists t. split; [reflexivity|].
    rewrite <- EM, map_length. split; [exact C1|]. split; [exact C2|]. split; [exact C3|]. intros Hn0.
    destruct (@first_element V M) as (i & r & v & N & C); [intros Z; unfold k in Hn; rewrite Z in Hn; simpl in Hn; lia|].
    rewrite <- EM in N. rewrite nth_error_map in N. destruct (nth_error L i) as [x|] eqn:Ex; [|discriminate]. injection N as Nx.
    eapply read_leaks. apply (R i x 0 v Ex).
    + rewrite Nx. reflexivity.
    + rewrite <- firstn_map, EM, C. simpl. lia.
Qed.
Print Assumptions C82_copy_constructor_refuted.
Example C82_copy_case :
  let mk h := match driven true false 0 0 0 h with Ok a => a | _ => null_aoa nat unit BMalloc end in
  let b := mk [AAppendFrom [1;2]; AAppendFrom [3]] in
  match x_setEqualTo true false 1 (mk [AAppendFrom [7;7;7]]) b with XThrow Element t => Some (numArrays t, vals t) | _ => None end =
    Some (2, Obj 1 :: repeat Raw 11) /\
  match x_copy_ctor true false 2 b with XThrow Element t => Some (offs t, szs t, vals t) | _ => None end =
    Some ([Obj 0; Obj 4; Obj 6], [Obj 2; Obj 1], [Obj 1; Obj 2; Raw; Raw; Raw; Raw]).
Proof. vm_compute. split; reflexivity. Qed.

(** C82: ArrayOfArraysView::appendToArray checks the capacity after it has written the values (see C27). With a handler that
    throws and a trivially copyable T the rejected append has overwritten the next array. *)
Theorem C82_view_append_refuted : forall V (dflt : V) n0 cap0 h M a i r w r2 v n,
  vec_run dflt h (repeat [] n0) = Some M -> driven true true dflt n0 cap0 h = Ok a ->
  nth_error M i = Some r -> nth_error M (i + 1) = Some (w :: r2) -> capacityOfArray true a i = Ok (length r) ->
  exists t, x_v_appendToArray true true n a i [v] = XThrow Error t /\
    aoa_at true a (i + 1) 0 = Ok w /\ aoa_at true t (i + 1) 0 = Ok v.
Proof.
  intros V dflt n0 cap0 h M a i r w r2 v n H E Er Ew C. pose proof (driven_arep H E) as R.
  pose proof (AoAProofs4.rep_at true R Ew (j := 0) eq_refl) as W.
  destruct R as (L & A & EM & _). rewrite <- EM in Er, Ew. destruct (AoAProofs4.row_at Er) as (P & k & T & -> & <-).
  assert (Ew' : nth_error (map fst T) 0 = Some (w :: r2)).
  { rewrite map_app in Ew. rewrite nth_error_app2 in Ew by (rewrite map_length; lia). rewrite map_length in Ew.
    replace (length P + 1 - length P) with 1 in Ew by lia. exact Ew. }
  destruct T as [|[x k2] B]; [discriminate|]. cbn in Ew'. injection Ew' as ->.
  pose proof A as [I _]. destruct (AoAProofs3.aok_row A) as [q Mm].
  rewrite (AoAProofs.capacityOf_at true I (AoAProofs3.row_nth P (r, k) _)) in C. injection C as C. unfold AoALayout.wid in C. cbn [fst snd] in C.
  assert (k = 0) by lia. subst k. cbn [repeat app] in Mm.
  unfold x_v_appendToArray. rewrite (AoAProofs3.row_check true I). cbn [bind]. rewrite (AoAProofs3.row_off I). cbn [xlift xbind].
  rewrite (AoAProofs3.row_size true I). cbn [xlift xbind]. cbn [x_uninitializedCopy]. unfold x_construct.
  set (o := length (AoALayout.flat (fun v => v) P)) in *.
  assert (M1 : mem true (vals a) ((AoALayout.flat (fun v => v) P ++ map LV r) ++ LN ::
     (map LV r2 ++ repeat LN k2) ++ AoALayout.flat (fun v => v) B ++ repeat LN q)).
  { assert (Fl : AoALayout.flat (fun v => v) ((w :: r2, k2) :: B) = LV w :: (map LV r2 ++ repeat LN k2) ++ AoALayout.flat (fun v => v) B).
    { unfold AoALayout.flat. cbn [flat_map]. unfold AoALayout.cells at 1. cbn [fst snd map]. rewrite map_id. reflexivity. }
    rewrite Fl in Mm. cbn [app] in Mm. rewrite app_assoc in Mm. apply mem_split in Mm. destruct Mm as (bp & bc & bs & -> & F1 & _ & F2 & _).
    apply Forall2_app; [exact F1|]. constructor; [left; reflexivity|]. rewrite <- app_assoc in F2. exact F2. }
  destruct (@construct_ok V true _ _ _ _ (o + length r) v M1) as (b' & Eb & Mb); [unfold o; rewrite app_length, map_length; reflexivity|exact Logic.I|].
  rewrite Eb. cbn [xlift xleft xbind]. exists (set_vals b' a). split; [|split; [exact W|]].
  - unfold check_capacity. assert (I' : AoAProofs.iok (set_vals b' a) (P ++ (r, 0) :: (w :: r2, k2) :: B)) by exact I.
    rewrite (AoAProofs3.row_size true I'). cbn [bind]. rewrite (AoAProofs.capacityOf_at true I' (AoAProofs3.row_nth P (r, 0) _)). cbn [bind].
    unfold error_if, AoALayout.wid. cbn [fst snd length]. destruct (Nat.ltb_spec (length r + 0) (length r + 1)); [reflexivity|lia].
  - unfold aoa_at. assert (I' : AoAProofs.iok (set_vals b' a) (P ++ (r, 0) :: (w :: r2, k2) :: B)) by exact I.
    assert (Nx : nth_error (P ++ (r, 0) :: (w :: r2, k2) :: B) (length P + 1) = Some (w :: r2, k2)).
    { rewrite nth_error_app2 by lia. replace (length P + 1 - length P) with 1 by lia. reflexivity. }
    rewrite (ThrowAoAProofs.iok_check2 true I' Nx (j := 0)) by (cbn; lia). cbn [bind vals set_vals].
    eapply rd_nth; [exact Mb|]. rewrite nth_error_app2.
    + rewrite app_length, map_length, AoALayout.flat_length. rewrite firstn_app, firstn_all2 by lia. replace (length P + 1 - length P) with 1 by lia.
      cbn [firstn]. rewrite AoALayout.total_app. cbn [AoALayout.total]. unfold AoALayout.wid. cbn [fst snd].
      replace (AoALayout.total P + (length r + 0 + 0) + 0 - (AoALayout.total P + length r)) with 0 by lia. reflexivity.
    + rewrite app_length, map_length, AoALayout.flat_length. rewrite firstn_app, firstn_all2 by lia. replace (length P + 1 - length P) with 1 by lia.
      cbn [firstn]. rewrite AoALayout.total_app. cbn [AoALayout.total]. unfold AoALayout.wid. cbn [fst snd]. lia.
Qed.
Print Assumptions C82_view_append_refuted.
Example C82_view_append_case :
  (a <- driven true true 0 2 1 [AEmplaceBack 0 1; AEmplaceBack 1 2] ;;
   match x_v_appendToArray true true 5 a 0 [9] with XThrow Error t => Ok (szs t, vals t) | _ => Abort end) = Ok ([Obj 1; Obj 1], [Obj 1; Obj 9]).
Proof. vm_compute. reflexivity. Qed.
