(** Property C83: what an exception leaves of a SortedArray. Statements use SortedSpec, SortedArraySpec and
    ThrowSortedSpec only besides the modelled functions. *)
From Coq Require Import List Arith ZArith Lia Bool Sorting.Sorted.
From Verif Require Import Base Mem BufferManip SortedSpec SortedArray SortedArraySpec Throw ThrowAoASpec ThrowSorted ThrowSortedSpec.
From Verif Require BaseProofs MemProofs BufferManipProofs SortedProofs SortedProofs2 SortedProofs3 SortedArrayProofs CopyMoveProofs
  ThrowProofs ThrowSortedProofs ThrowSortedProofs2 ThrowSetsProofs.
Import ListNotations.
Set Implicit Arguments.
Unset Strict Implicit.

Notation drives chk lt eqb dflt h := (srun chk false BMalloc lt eqb dflt h (new_s _ BMalloc)).

Section Vocabulary.
Variable V : Type.
Variable lt eqb : V -> V -> bool.
Variable chk : bool.
(** The elements an array shows. *)
Definition exhibits (a : sarray V) (l : list V) : Prop :=
  s_size a = length l /\ forall i v, nth_error l i = Some v -> s_at chk a (Z.of_nat i) = Ok v.
(** The object left behind, which showed [l] before the call. *)
Definition left_behind (st : state_left) (t : sarray V) (l : list V) : Prop :=
  match st with
  | Usable => exhibits t l /\ (forall v, s_contains lt eqb t v = Ok (among eqb l v)) /\ s_dtor chk false BMalloc t = Ok tt
  | Forgets => s_dtor chk false BMalloc t = Fault FLeak
  | Corrupt => s_dtor chk false BMalloc t = Fault FDestroy
  end.
End Vocabulary.

Lemma holds_exhibits V chk (a : sarray V) l : BufferManipProofs.holds false (s_buf a) l -> s_size a = length l -> exhibits chk a l.
Proof.
  intros H Hs. split; [exact Hs|]. intros i v N. assert (Hi : i < length l) by (apply nth_error_Some; congruence).
  unfold s_at. rewrite Hs.
  rewrite BaseProofs.check_if_ok by (destruct (Z.ltb_spec (Z.of_nat i) 0), (Z.leb_spec (Z.of_nat (length l)) (Z.of_nat i)); auto; lia).
  unfold to_ix. destruct (Z.ltb_spec (Z.of_nat i) 0); [lia|]. cbn [bind]. rewrite Nat2Z.id.
  eapply BufferManipProofs.holds_rd; eauto.
Qed.
Lemma left_s_behind V (lt eqb : V -> V -> bool) chk st (t : sarray V) l : total_order lt eqb ->
  ThrowSortedProofs2.left_s chk lt st t l -> left_behind lt eqb chk st t l.
Proof.
  intros T. destruct st; cbn [ThrowSortedProofs2.left_s left_behind]; auto.
  intros A. pose proof A as (H & Hs & I). split; [apply holds_exhibits; auto|]. split; [|eapply ThrowSortedProofs2.dtor_usable; eauto].
  intros v. rewrite (ThrowSortedProofs2.among_present T). unfold s_contains. rewrite Hs.
  eapply (@SortedProofs3.contains_ok V V false lt eqb (fun x => x) T) with (p := []); auto.
  rewrite map_id. apply BufferManipProofs.holds_mem. exact H.
Qed.
Lemma drives_sa V (lt eqb : V -> V -> bool) (dflt : V) chk h l : total_order lt eqb -> Forall (allowed lt) h ->
  is_set lt l (set_of h) -> exists a rs, drives chk lt eqb dflt h = Ok (a, rs) /\ SortedArrayProofs.sa_ok false lt a l.
Proof.
  intros T F [I S].
  destruct (@SortedArrayProofs.srun_ok V chk false lt eqb dflt T h (new_s V BMalloc) [] (SortedArrayProofs.new_s_ok false lt) F)
    as ([a rs] & E & l' & A & Hl & _). cbn [fst snd] in *. exists a, rs. split; [exact E|].
  replace l with l'; auto. apply SortedProofs.increasing_strong in I. pose proof A as (_ & _ & I').
  eapply (CopyMoveProofs.incr_unique (lt := lt) (eqb := eqb)); eauto. intros x. rewrite Hl, S. tauto.
Qed.

(** C83: one call on a SortedArray that any history produced, the (n+1)-th copy of an element throwing. With enough
    budget it is the call of C19; otherwise the state left is the one specified. *)
Theorem C83_call : forall V (lt eqb : V -> V -> bool) (dflt : V) chk, total_order lt eqb ->
  forall h l c n, Forall (allowed lt) (h ++ [c]) -> is_set lt l (set_of h) ->
  exists a rs, drives chk lt eqb dflt h = Ok (a, rs) /\
    (scost eqb c l <= n -> exists a' r, x_sstep chk false lt eqb dflt n c a = XOk (n - scost eqb c l) (a', r) /\
       sstep chk false BMalloc lt eqb dflt c a = Ok (a', r) /\ left_behind lt eqb chk Usable a' (contents_after lt eqb c l)) /\
    (n < scost eqb c l -> exists t, x_sstep chk false lt eqb dflt n c a = XThrow Element t /\
       left_behind lt eqb chk (sleft lt eqb c l n) t l).
Proof.
  intros V lt eqb dflt chk T h l c n F S. apply Forall_app in F. destruct F as [F Fc]. inversion Fc as [|? ? Al _]; subst.
  destruct (@drives_sa V lt eqb dflt chk h l T F S) as (a & rs & E & A). exists a, rs. split; [exact E|].
  pose proof (@ThrowSortedProofs2.x_sstep_ok V chk lt eqb dflt T c a l n A Al) as P.
  destruct (x_sstep chk false lt eqb dflt n c a) as [n' [a' r]|w t|f]; cbn [ThrowProofs.xspec] in P; [| |contradiction].
  - destruct P as [-> E']. split; [|lia]. intros _. exists a', r. rewrite Nat.add_sub. split; [reflexivity|]. split; [exact E'|].
    destruct (@ThrowSortedProofs2.sstep_contents V chk lt eqb dflt T c a l A Al) as ([a2 r2] & E2 & A2).
    rewrite E' in E2. injection E2 as <- <-. apply left_s_behind; auto.
  - destruct P as (-> & Hn & L). split; [lia|]. intros _. exists t. split; [reflexivity|]. apply left_s_behind; auto.
Qed.
Print Assumptions C83_call.

(** C83: the specified contents are the set the call describes (C19). *)
Theorem C83_contents : forall V (lt eqb : V -> V -> bool), total_order lt eqb ->
  forall c l, increasing lt l -> is_set lt (contents_after lt eqb c l) (set_after c (fun x => In x l)).
Proof.
  intros V lt eqb T c l I. apply SortedProofs.increasing_strong in I.
  destruct (@ThrowSortedProofs2.contents_set V lt eqb T c l I) as [I' S]. split; [apply SortedProofs.increasing_strong; exact I'|exact S].
Qed.
Print Assumptions C83_contents.

(** C83: a program that catches every exception and goes on, while going on is possible. *)
Theorem C83_program : forall V (lt eqb : V -> V -> bool) (dflt : V) chk, total_order lt eqb ->
  forall h, Forall (fun nc => allowed lt (snd nc)) h ->
  let '(l, st) := sfate lt eqb h [] in
  exists t, x_srun chk false lt eqb dflt h (new_s V BMalloc) = Ok t /\ left_behind lt eqb chk st t l.
Proof.
  intros V lt eqb dflt chk T h F.
  destruct (@ThrowSortedProofs2.x_srun_ok V chk lt eqb dflt T h _ [] (SortedArrayProofs.new_s_ok false lt) F) as (t & E & L).
  destruct (sfate lt eqb h []) as [l st]. exists t. split; [exact E|]. apply left_s_behind; auto.
Qed.
Print Assumptions C83_program.

Example C83_case :
  let f := sfate Nat.ltb Nat.eqb in
  (* a greater value survives, a smaller one does not; a present one is not copied *)
  f [(9, SInsert 5); (0, SInsert 7); (0, SInsert 5); (9, SInsert 8)] [] = ([5;8], Usable) /\
  f [(9, SInsert 5); (0, SInsert 3); (9, SInsert 8)] [] = ([5], Corrupt) /\
  (* ranges are built from the greatest value down *)
  f [(9, SInsert 5); (0, SInsertRange [1;9])] [] = ([5], Usable) /\
  f [(9, SInsert 5); (1, SInsertRange [8;9])] [] = ([5], Forgets) /\
  f [(9, SInsert 5); (1, SInsertRange [1;9])] [] = ([5], Corrupt) /\
  f [(1, SInsertRange [1;9])] [] = ([], Forgets) /\
  x_s_inserts true false Nat.ltb Nat.eqb 1 (mkS [Obj 5; Raw; Raw] 1) [1;9] = XThrow Element (mkS [Raw; Obj 5; Obj 9] 1).
Proof. vm_compute. repeat split. Qed.

(** C83: copy assignment: what remains depends on the two sizes. *)
Theorem C83_copy : forall V (lt eqb : V -> V -> bool) (dflt : V) chk, total_order lt eqb ->
  forall h1 h2 vs ws n, Forall (allowed lt) h1 -> Forall (allowed lt) h2 ->
  is_set lt vs (set_of h1) -> is_set lt ws (set_of h2) ->
  let s1 := length vs in let s2 := length ws in let k := (s2 - s1) + s2 in
  exists a b rs1 rs2, drives chk lt eqb dflt h1 = Ok (a, rs1) /\ drives chk lt eqb dflt h2 = Ok (b, rs2) /\
    (k <= n -> exists a', x_s_assign chk false dflt n a b = XOk (n - k) a' /\ left_behind lt eqb chk Usable a' ws) /\
    (n < k -> exists t, x_s_assign chk false dflt n a b = XThrow Element t /\
       (s2 < s1 -> left_behind lt eqb chk Corrupt t vs) /\
       (s1 < s2 -> left_behind lt eqb chk (if n =? 0 then Usable else Forgets) t vs) /\
       (* equal sizes: the destructor works, the elements are a mixture *)
       (s1 = s2 -> s_dtor chk false BMalloc t = Ok tt /\ exhibits chk t (firstn n ws ++ skipn n vs))).
Proof.
  intros V lt eqb dflt chk T h1 h2 vs ws n F1 F2 S1 S2 s1 s2 k.
  destruct (@drives_sa V lt eqb dflt chk h1 vs T F1 S1) as (a & rs1 & E1 & A).
  destruct (@drives_sa V lt eqb dflt chk h2 ws T F2 S2) as (b & rs2 & E2 & B).
  exists a, b, rs1, rs2. split; [exact E1|]. split; [exact E2|].
  pose proof (@ThrowSortedProofs2.x_s_assign_ok V chk lt dflt a b vs ws n A B) as P. cbn zeta in P. fold s1 s2 k in P.
  destruct (x_s_assign chk false dflt n a b) as [n' a'|w t|f]; cbn [ThrowProofs.xspec] in P; [| |contradiction].
  - destruct P as [-> A']. split; [|lia]. intros _. exists a'. rewrite Nat.add_sub. split; [reflexivity|]. apply left_s_behind; auto.
  - destruct P as (-> & Hn & Hs & _ & P1 & P2 & P3 & P4). split; [lia|]. intros _. exists t. split; [reflexivity|].
    split; [exact P1|]. split.
    + intros L. destruct (Nat.eqb_spec n 0) as [Z|Z]; [|apply P2; auto]. apply left_s_behind; auto. apply (P3 L Z).
    + intros L. specialize (P4 L).
      assert (LN : s_size t = length (firstn n ws ++ skipn n vs)).
      { rewrite Hs, app_length, firstn_length, skipn_length. unfold s1, s2 in *. lia. }
      split; [|apply holds_exhibits; auto]. unfold s_dtor. rewrite LN.
      destruct (@BufferManipProofs.free_ok V chk false BMalloc (s_buf t) _ P4) as (bf & Eb & _). rewrite Eb. reflexivity.
Qed.
Print Assumptions C83_copy.

(** C83: the mixture need not be sorted. The array can be destroyed and used, but it denies containing a value it
    shows, and inserts this value a second time. *)
Theorem C83_copy_refuted : exists a b t t',
  drives true Nat.ltb Nat.eqb 0 [SInsertRange [1;3]] = Ok (a, [2]) /\
  drives true Nat.ltb Nat.eqb 0 [SInsertRange [5;7]] = Ok (b, [2]) /\
  x_s_assign true false 0 1 a b = XThrow Element t /\ s_dtor true false BMalloc t = Ok tt /\
  exhibits true t [5;3] /\ s_contains Nat.ltb Nat.eqb t 3 = Ok false /\
  s_insert true false BMalloc Nat.ltb Nat.eqb t 3 = Ok (t', true) /\ exhibits true t' [3;5;3].
Proof.
  eexists _, _, _, _. split; [vm_compute; reflexivity|]. split; [vm_compute; reflexivity|].
  split; [vm_compute; reflexivity|]. split; [vm_compute; reflexivity|]. split.
  { split; [reflexivity|]. intros [|[|[|i]]] v N; simpl in N; try discriminate; injection N as <-; reflexivity. }
  split; [vm_compute; reflexivity|]. split; [vm_compute; reflexivity|].
  split; [reflexivity|]. intros [|[|[|[|i]]]] v N; simpl in N; try discriminate; injection N as <-; reflexivity.
Qed.
Print Assumptions C83_copy_refuted.

(** C83: the copy constructor does not delegate, so no destructor runs on what it built: its allocation is lost, and
    the objects built in it. *)
Theorem C83_copy_constructor_refuted : forall V (lt eqb : V -> V -> bool) (dflt : V) chk, total_order lt eqb ->
  forall h ws n, Forall (allowed lt) h -> is_set lt ws (set_of h) ->
  let k := 2 * length ws in
  exists b rs, drives chk lt eqb dflt h = Ok (b, rs) /\
    (k <= n -> exists a, x_s_copy_ctor chk false dflt n b = XOk (n - k) a /\ left_behind lt eqb chk Usable a ws) /\
    (n < k -> exists t, x_s_copy_ctor chk false dflt n b = XThrow Element t /\
       0 < length ws <= length (s_buf t) /\ (0 < n -> release false (s_buf t) = Fault FLeak)).
Proof.
  intros V lt eqb dflt chk T h ws n F S k.
  destruct (@drives_sa V lt eqb dflt chk h ws T F S) as (b & rs & E & B). exists b, rs. split; [exact E|]. unfold x_s_copy_ctor.
  pose proof (@ThrowSortedProofs2.x_s_assign_ok V chk lt dflt _ b [] ws n (SortedArrayProofs.new_s_ok false lt) B) as P.
  cbn zeta in P. cbn [length] in P. rewrite Nat.sub_0_r in P. replace (length ws + length ws) with k in P by (unfold k; lia).
  destruct (x_s_assign chk false dflt n (new_s V BMalloc) b) as [n' a'|w t|f]; cbn [ThrowProofs.xspec] in P; [| |contradiction].
  - destruct P as [-> A']. split; [|lia]. intros _. exists a'. rewrite Nat.add_sub. split; [reflexivity|]. apply left_s_behind; auto.
  - destruct P as (-> & Hn & Hs & Hl & _ & P2 & _). split; [lia|]. intros _. exists t. split; [reflexivity|]. split; [unfold k in Hn; lia|].
    intros N0. specialize (P2 ltac:(unfold k in Hn; lia) ltac:(lia)). unfold s_dtor in P2. rewrite Hs in P2.
    unfold free in P2. rewrite BufferManipProofs.check_ok in P2 by lia. cbn [bind ArrayManip.destroy for_up] in P2.
    destruct (release false (s_buf t)); try discriminate. cbn in P2. congruence.
Qed.
Print Assumptions C83_copy_constructor_refuted.
Example C83_copy_case :
  let dt x := match x with XThrow Element t => s_dtor true false BMalloc t | _ => Abort end in
  dt (x_s_assign true false 0 1 (mkS [Obj 1; Obj 2; Obj 3] 3) (mkS [Obj 5; Obj 7] 2)) = Fault FDestroy /\
  dt (x_s_assign true false 0 1 (mkS [Obj 5; Obj 7] 2) (mkS [Obj 1; Obj 2; Obj 3] 3)) = Fault FLeak /\
  x_s_copy_ctor true false 0 1 (mkS [Obj 5; Obj 7] 2) = XThrow Element (mkS [Obj 0; Raw] 0).
Proof. vm_compute. repeat split. Qed.

(** C83: until something is thrown the call does exactly what the call of C19 does: any object, any arguments, any T. *)
Theorem C83_until_thrown : forall V (lt eqb : V -> V -> bool) (dflt : V) chk tv n c a,
  match x_sstep chk tv lt eqb dflt n c a with
  | XOk _ r => sstep chk tv BMalloc lt eqb dflt c a = Ok r
  | XThrow Error _ => sstep chk tv BMalloc lt eqb dflt c a = Abort
  | XThrow Element _ => True
  | XFault f => sstep chk tv BMalloc lt eqb dflt c a = Fault f
  end.
Proof. intros. apply ThrowSetsProofs.sim_sstep. Qed.
Print Assumptions C83_until_thrown.
