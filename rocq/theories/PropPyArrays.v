(** C67: pylvarray.ArrayOfArrays is a list of lists guarded by its access level. *)
From Coq Require Import List Arith ZArith Lia Bool.
From Verif Require Import Base BaseProofs Mem BufferManip AoA AoASpec PropAoA PropOwn PyBase PyArrays PyArraysSpec PyArraysProofs.
Import ListNotations.
Set Implicit Arguments.
Unset Strict Implicit.

(** Every Python program over an exported ArrayOfArrays, whatever C++ did with it before, gets the results of
    the same program over a list of lists, for all indices and without LVARRAY_BOUNDS_CHECK; what Python did to
    the array is a history of calls from C++. *)
Theorem C67_list_of_lists V (dflt : V) chk safe conv vtype n0 cap0 h M level prog M' level' results :
  vec_run dflt h (repeat [] n0) = Some M -> forallb (@foreign V) prog = true ->
  list_run safe conv vtype prog M level = (M', level', results) ->
  exists a a' h', driven chk true dflt n0 cap0 h = Ok a /\
    py_run chk safe conv vtype prog (mkPA (Some a) level) = Ok (mkPA (Some a') level', results) /\
    displays chk a' M' /\ driven chk true dflt n0 cap0 (h ++ h') = Ok a'.
Proof.
  intros H F L. pose proof (driven_rep chk true dflt n0 cap0 h) as D. rewrite H in D. destruct D as [(a & E & R)|[T _]]; [|discriminate].
  destruct (py_run_ok dflt chk safe conv vtype level F R) as (a' & K' & h' & P & R' & W). rewrite L in P, R'. cbn [fst snd] in *.
  exists a, a', h'. split; [exact E|]. split; [exact P|]. split; [exact (rep_displays chk R')|].
  unfold driven in *. destruct (new_aoa V unit chk true true false BMalloc n0 cap0); try discriminate. cbn [bind] in *. exact (arun_app E W).
Qed.
Print Assumptions C67_list_of_lists.

(** What a program over a list of lists can change *)
Definition raises_level (V : Type) (c : pcall V) : bool := match c with PSetLevel l => (MODIFIABLE <=? l)%Z | _ => false end.
Definition resizing_level (V : Type) (c : pcall V) : bool := match c with PSetLevel l => (RESIZEABLE <=? l)%Z | _ => false end.
Lemma step_protect V safe conv vtype (c : pcall V) M level :
  (level < MODIFIABLE)%Z -> raises_level c = false ->
  fst (fst (list_step safe conv vtype c M level)) = M /\ (snd (fst (list_step safe conv vtype c M level)) < MODIFIABLE)%Z.
Proof.
  intros L N. assert (E1 : (level <? RESIZEABLE)%Z = true) by (apply Z.ltb_lt; unfold MODIFIABLE, RESIZEABLE in *; lia).
  assert (E2 : (MODIFIABLE <=? level)%Z = false) by (apply Z.leb_gt; exact L).
  destruct c; cbn [list_step]; rewrite ?E1, ?E2; cbn [negb];
    repeat match goal with |- context [ match ?x with _ => _ end ] => destruct x end; cbn [fst snd]; auto.
  cbn [raises_level] in N. apply Z.leb_gt in N. auto.
Qed.
Lemma step_shape V safe conv vtype (c : pcall V) M level :
  (level < RESIZEABLE)%Z -> resizing_level c = false ->
  map (@length V) (fst (fst (list_step safe conv vtype c M level))) = map (@length V) M /\
  (snd (fst (list_step safe conv vtype c M level)) < RESIZEABLE)%Z.
Proof.
  intros L N. assert (E1 : (level <? RESIZEABLE)%Z = true) by (apply Z.ltb_lt; exact L).
  destruct c as [|i| |i|i|i j v|i j x|i x|i j| |l]; cbn [list_step]; rewrite ?E1; cbn [negb];
    try (repeat match goal with |- context [ match ?x with _ => _ end ] => destruct x end; cbn [fst snd]; auto; fail).
  - destruct (norm (length M) i) as [k|] eqn:Ek; [|auto]. destruct (MODIFIABLE <=? level)%Z; cbn [negb]; [|auto].
    destruct (norm (length (nth k M [])) j) as [l|] eqn:El; [|auto]. cbn [fst snd]. split; [|exact L].
    assert (B : forall n z q, norm n z = Some q -> q < n).
    { intros n z q. unfold norm. destruct ((in_ll z) && ((0 <=? z) && (z <? Z.of_nat n)))%Z eqn:B1.
      - intros Q. injection Q as <-. apply andb_prop in B1. destruct B1 as [_ B1]. apply andb_prop in B1. destruct B1 as [B1 B2].
        apply Z.leb_le in B1. apply Z.ltb_lt in B2. lia.
      - destruct ((in_ll z) && ((z <? 0) && (0 <=? z + Z.of_nat n)))%Z eqn:B2; [|discriminate]. intros Q. injection Q as <-.
        apply andb_prop in B2. destruct B2 as [_ B2]. apply andb_prop in B2. destruct B2 as [B2 B3]. apply Z.ltb_lt in B2. apply Z.leb_le in B3. lia. }
    apply B in Ek. apply B in El. unfold replace. rewrite map_app. cbn [map]. rewrite app_length, firstn_length. cbn [length]. rewrite skipn_length.
    replace (Nat.min l (length (nth k M [])) + S (length (nth k M []) - (l + 1))) with (length (nth k M [])) by lia.
    destruct (nth_error_split M k (nth_row Ek)) as (A & B' & EM & LA). remember (nth k M []) as r. rewrite EM. subst k.
    rewrite firstn_app, firstn_all, Nat.sub_diag, firstn_O, app_nil_r.
    replace (A ++ r :: B') with ((A ++ [r]) ++ B') at 1 by (rewrite <- app_assoc; reflexivity).
    replace (length A + 1) with (length (A ++ [r])) by (rewrite app_length; reflexivity).
    rewrite skipn_app, skipn_all, Nat.sub_diag, skipn_O, !map_app. reflexivity.
  - cbn [resizing_level] in N. apply Z.leb_gt in N. destruct (in_int l); cbn [fst snd]; auto.
Qed.

(** READ_ONLY protects: below MODIFIABLE no program that does not raise the level changes the array, whatever it
    calls; below RESIZEABLE the number and sizes of the inner arrays stay. *)
Theorem C67_read_only V (dflt : V) chk safe conv vtype n0 cap0 h M level prog :
  vec_run dflt h (repeat [] n0) = Some M -> forallb (@foreign V) prog = true ->
  (level < MODIFIABLE)%Z -> existsb (@raises_level V) prog = false ->
  exists a a' level' results, driven chk true dflt n0 cap0 h = Ok a /\
    py_run chk safe conv vtype prog (mkPA (Some a) level) = Ok (mkPA (Some a') level', results) /\ displays chk a' M.
Proof.
  intros H F L N. assert (Q : fst (fst (list_run safe conv vtype prog M level)) = M).
  { clear H F. revert level L. induction prog as [|c p IH]; intros level L; [reflexivity|]. simpl in N. apply orb_false_iff in N. destruct N as [N N'].
    destruct (step_protect safe conv vtype M L N) as [S1 S2]. cbn [list_run]. destruct (list_step safe conv vtype c M level) as [[M1 l1] r]. cbn [fst snd] in *. subst M1.
    specialize (IH N' _ S2). destruct (list_run safe conv vtype p M l1) as [[M2 l2] rs]. exact IH. }
  destruct (list_run safe conv vtype prog M level) as [[M' l'] rs] eqn:E. cbn [fst snd] in Q. subst M'.
  destruct (C67_list_of_lists chk cap0 H F E) as (a & a' & h' & E1 & E2 & E3 & _). exists a, a', l', rs. auto.
Qed.
Print Assumptions C67_read_only.
Theorem C67_not_resizeable V (dflt : V) chk safe conv vtype n0 cap0 h M level prog :
  vec_run dflt h (repeat [] n0) = Some M -> forallb (@foreign V) prog = true ->
  (level < RESIZEABLE)%Z -> existsb (@resizing_level V) prog = false ->
  exists a a' level' results M', driven chk true dflt n0 cap0 h = Ok a /\
    py_run chk safe conv vtype prog (mkPA (Some a) level) = Ok (mkPA (Some a') level', results) /\ displays chk a' M' /\
    map (@length V) M' = map (@length V) M.
Proof.
  intros H F L N. assert (Q : map (@length V) (fst (fst (list_run safe conv vtype prog M level))) = map (@length V) M).
  { clear H F. revert level M L. induction prog as [|c p IH]; intros level M L; [reflexivity|]. simpl in N. apply orb_false_iff in N. destruct N as [N N'].
    destruct (step_shape safe conv vtype M L N) as [S1 S2]. cbn [list_run]. destruct (list_step safe conv vtype c M level) as [[M1 l1] r]. cbn [fst snd] in *.
    specialize (IH N' _ M1 S2). destruct (list_run safe conv vtype p M1 l1) as [[M2 l2] rs]. cbn [fst snd] in *. congruence. }
  destruct (list_run safe conv vtype prog M level) as [[M' l'] rs] eqn:E. cbn [fst snd] in Q.
  destruct (C67_list_of_lists chk cap0 H F E) as (a & a' & h' & E1 & E2 & E3 & _). exists a, a', l', rs, M'. auto.
Qed.
Print Assumptions C67_not_resizeable.

(** What the methods take as values, exactly: an object NumPy makes into an array of at most one dimension which is
    contiguous, aligned and writeable, of the element type or of one that casts safely to it. *)
Theorem C67_arguments V safe conv vtype (obj : option (npy V)) vs :
  parseNumPyArray safe conv vtype obj = inl vs <->
  exists x, obj = Some x /\ n_dims x <= 1 /\ n_carray x = true /\
    ((n_type x = vtype /\ vs = n_vals x) \/ (n_type x <> vtype /\ safe (n_type x) vtype = true /\ vs = map (conv (n_type x) vtype) (n_vals x))).
Proof.
  unfold parseNumPyArray. destruct obj as [x|]; [|split; [discriminate|intros (x & E & _); discriminate]].
  destruct (Nat.ltb_spec 1 (n_dims x)) as [D|D]; [split; [discriminate|intros (y & E & B & _); injection E as ->; lia]|].
  destruct (n_carray x) eqn:C; cbn [negb]; [|split; [discriminate|intros (y & E & _ & B & _); injection E as ->; congruence]].
  destruct (Nat.eqb_spec (n_type x) vtype) as [E|E].
  - split; [intros Q; injection Q as <-; exists x; auto 6|]. intros (y & Q & _ & _ & [[_ ->]|[N _]]); injection Q as ->; [reflexivity|contradiction].
  - destruct (safe (n_type x) vtype) eqn:S; cbn [negb].
    + split; [intros Q; injection Q as <-; exists x; auto 8|]. intros (y & Q & _ & _ & [[N _]|[_ [_ ->]]]); injection Q as ->; [contradiction|reflexivity].
    + split; [discriminate|]. intros (y & Q & _ & _ & [[N _]|[_ [B _]]]); injection Q as ->; [contradiction|congruence].
Qed.
Print Assumptions C67_arguments.
Theorem C67_arguments_rejected V safe conv vtype (obj : option (npy V)) e :
  parseNumPyArray safe conv vtype obj = inr e ->
  match obj with
  | None => e = EOther
  | Some x => (e = ERuntime /\ (1 < n_dims x \/ n_carray x = false)) \/ (e = EType /\ n_type x <> vtype /\ safe (n_type x) vtype = false)
  end.
Proof.
  unfold parseNumPyArray. destruct obj as [x|]; [|intros Q; injection Q as <-; reflexivity].
  destruct (Nat.ltb_spec 1 (n_dims x)) as [D|D]; [intros Q; injection Q as <-; auto|].
  destruct (n_carray x) eqn:C; cbn [negb]; [|intros Q; injection Q as <-; auto].
  destruct (Nat.eqb_spec (n_type x) vtype) as [E|E]; [discriminate|].
  destruct (safe (n_type x) vtype) eqn:S; cbn [negb]; [discriminate|]. intros Q. injection Q as <-. right. auto.
Qed.
Print Assumptions C67_arguments_rejected.

(** An object made by pylvarray.ArrayOfArrays() has no array behind it. len, a[ i ], iteration and the access
    levels raise, as the macro VERIFY_INITIALIZED is for; insert, insert_into, erase_from, del a[ i ] and
    a[ i ] = x with i >= 0 read the access level through the null pointer. *)
Theorem C67_uninitialised_raises V chk safe conv vtype level (c : pcall V) :
  match c with
  | PLen | PGet _ | PIter | PSetElem _ _ _ | PGetLevel | PSetLevel _ | PInsertInto _ _ (POwnRow _) | PInsert _ (POwnRow _) => True
  | PDel i | PSetItem i => (i < 0)%Z \/ in_ll i = false
  | _ => False
  end ->
  exists e, py_step chk safe conv vtype c (mkPA None level) = Ok (mkPA None level, PRaise e).
Proof.
  intros H. destruct c as [|i| |i|i|i j v|i j [o|k]|i [o|k]|i j| |l]; try contradiction; cbn [py_step]; unfold py_setElem, eval_arg, seq_index, py_getitem; cbn;
    repeat match goal with |- context [ if ?b then _ else _ ] => let B := fresh "B" in destruct b eqn:B; cbn end;
    try (eexists; reflexivity);
    exfalso; destruct H as [H|H]; rewrite ?H in *; cbn in *; try discriminate; apply Z.ltb_ge in B0; lia.
Qed.
Print Assumptions C67_uninitialised_raises.
Theorem C67_uninitialised_refuted V chk safe conv vtype level (c : pcall V) :
  match c with
  | PInsertInto _ _ (PForeign _) | PInsert _ (PForeign _) | PEraseFrom _ _ => True
  | PDel i | PSetItem i => (0 <= i)%Z /\ in_ll i = true
  | _ => False
  end ->
  py_step chk safe conv vtype c (mkPA None level) = Fault FDangling.
Proof.
  intros H. destruct c as [|i| |i|i|i j v|i j [o|k]|i [o|k]|i j| |l]; try contradiction; try reflexivity;
    destruct H as [H1 H2]; cbn [py_step]; unfold seq_index; rewrite H2; cbn; apply Z.ltb_ge in H1; rewrite H1; reflexivity.
Qed.
Print Assumptions C67_uninitialised_refuted.

(** With a row of the array itself as the values the list of lists is not what Python gets: on [[1, ..., 7], [8, 9]]
    with room to spare a.insert( 0, a[ 1 ] ) inserts [4, 5], and without room to spare a.insert( 1, a[ 0 ] ) reads freed
    memory. *)
Definition same_type : nat -> nat -> bool := Nat.eqb.
Definition no_conv : nat -> nat -> nat -> nat := fun _ _ v => v.
Definition on_py (h : list (acall nat)) (level : Z) (prog : list (pcall nat)) : outcome (list (list nat) * Z * list (pres nat)) :=
  a <- driven false true 0 0 0 h ;; '(s, r) <- py_run false same_type no_conv 5 prog (mkPA (Some a) level) ;;
  match pa_array s with Some a' => x <- all_rows a' ;; Ok (x, pa_level s, r) | None => Fault FDangling end.
Theorem C67_own_row_refuted :
  let h := [AReserveValues 40; AResizeFromCapacities [7; 2]; AAppendTo 0 [1; 2; 3; 4; 5; 6; 7]; AAppendTo 1 [8; 9]] in
  list_run same_type no_conv 5 [PInsert 0 (POwnRow 1)] [[1; 2; 3; 4; 5; 6; 7]; [8; 9]] RESIZEABLE
    = ([[8; 9]; [1; 2; 3; 4; 5; 6; 7]; [8; 9]], RESIZEABLE, [PNone]) /\
  on_py h RESIZEABLE [] = Ok ([[1; 2; 3; 4; 5; 6; 7]; [8; 9]], RESIZEABLE, []) /\
  on_py h RESIZEABLE [PInsert 0 (POwnRow 1)] = Ok ([[4; 5]; [1; 2; 3; 4; 5; 6; 7]; [8; 9]], RESIZEABLE, [PNone]) /\
  on_py [AResizeFromCapacities [2]; AAppendTo 0 [1; 2]] RESIZEABLE [PInsert 1 (POwnRow 0)] = Fault FDangling.
Proof. vm_compute. repeat split. Qed.
Print Assumptions C67_own_row_refuted.

(** The NumPy type of T leads back to T except for char and for Python objects; different types T share one NumPy
    type only if one of them is char. *)
Theorem C67_types char_signed t n : getNumPyType char_signed t = Some n -> t <> CChar -> t <> CPyObject -> getTypeIndexFromNumPy n = Some t.
Proof. destruct t; cbn; intros H; injection H as <- || discriminate H; intros; try reflexivity; contradiction. Qed.
Print Assumptions C67_types.
Theorem C67_types_back char_signed t n : getTypeIndexFromNumPy n = Some t -> getNumPyType char_signed t = Some n.
Proof. destruct n; cbn; intros H; injection H as <- || discriminate H; reflexivity. Qed.
Print Assumptions C67_types_back.
Theorem C67_char_refuted : forall char_signed, exists n, getNumPyType char_signed CChar = Some n /\ getTypeIndexFromNumPy n <> Some CChar.
Proof. intros []; eexists; (split; [reflexivity|discriminate]). Qed.
Print Assumptions C67_char_refuted.

Example C67_case :
  let obj l := PForeign (Some (mkN 1 true 5 l)) in
  on_py hh READ_ONLY [PLen; PGet (-1); PDel 0; PSetElem 0 0 9; PSetLevel RESIZEABLE; PInsert 2 (obj [4; 5]); PInsertInto 0 1 (obj [6; 7; 8]);
                      PEraseFrom 1 0; PDel (-2); PSetElem (-1) (-1) 0; PInsert (-1) (obj []); PIter; PInsert 0 (PForeign (Some (mkN 2 true 5 [])));
                      PInsert 0 (PForeign (Some (mkN 1 true 3 [])))] =
  Ok ([[1; 6; 7; 8; 2]; [4; 0]], RESIZEABLE,
      [PInt 2; PView false [3; 4; 5; 6; 7; 8; 9]; PRaise ERuntime; PRaise EValue; PNone; PNone; PNone; PNone; PNone; PNone; PRaise EIndex;
       PViews [(true, [1; 6; 7; 8; 2]); (true, [4; 0])]; PRaise ERuntime; PRaise EType]) /\
  forallb (@foreign nat) [PInsert 2 (obj [4; 5]); PIter] = true /\
  vec_run 0 hh (repeat [] 0) = Some [[1; 2]; [3; 4; 5; 6; 7; 8; 9]].
Proof. vm_compute. repeat split. Qed.

(** The ranges of long long and of int *)
Theorem C67_ranges z : (in_ll z = true <-> (-9223372036854775808 <= z <= 9223372036854775807)%Z) /\ (in_int z = true <-> (-2147483648 <= z <= 2147483647)%Z).
Proof. unfold in_ll, in_int. rewrite !andb_true_iff, !Z.leb_le, !Z.ltb_lt. change (2 ^ 63)%Z with 9223372036854775808%Z. change (2 ^ 31)%Z with 2147483648%Z. lia. Qed.
Print Assumptions C67_ranges.
