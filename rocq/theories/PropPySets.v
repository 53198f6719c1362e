(** C68: pylvarray.SortedArray and pylvarray.ArrayOfSets are sets guarded by their access level. *)
From Coq Require Import List Arith ZArith Lia Bool Sorting.Sorted.
From Verif Require Import Base BaseProofs Mem BufferManip Sorted SortedSpec SortedArray SortedArraySpec AoA AoASpec AoS AoSSpec PropAoA PropAoS PropOwn
  PyBase PyArrays PyArraysSpec PyArraysProofs PySets PySetsSpec PySetsProofs.
From Verif Require MemProofs ArrayManip ArrayManipProofs BufferManipProofs SortedProofs SortedArrayProofs SetsProofs2 AoSProofs.
Import ListNotations.
Set Implicit Arguments.
Unset Strict Implicit.

(** The list operations of the specification are the operations of sets, for a total order. *)
Theorem C68_union V (lt eqb : V -> V -> bool) l vs : total_order lt eqb -> increasing lt l ->
  is_set lt (union lt eqb l vs) (fun x => In x l \/ In x vs).
Proof.
  intros T I. split.
  - apply SortedProofs.increasing_strong. apply (union_incr T). apply SortedProofs.increasing_strong. exact I.
  - intros x. rewrite (union_in T). tauto.
Qed.
Print Assumptions C68_union.
Theorem C68_minus V (lt eqb : V -> V -> bool) l vs : total_order lt eqb -> increasing lt l ->
  is_set lt (minus eqb l vs) (fun x => In x l /\ ~ In x vs).
Proof.
  intros T I. split.
  - apply SortedProofs.increasing_strong. apply minus_incr. apply SortedProofs.increasing_strong. exact I.
  - intros x. apply (minus_in T).
Qed.
Print Assumptions C68_minus.

(** Every Python program over an exported SortedArray, whatever C++ did with it before, gets the results of the
    same program over the set, if the arrays it hands over are sorted and without duplicates. What Python did to
    the set is a history of calls from C++. *)
Theorem C68_set V (lt eqb : V -> V -> bool) (dflt : V) chk safe conv vtype host h l level prog l' level' results :
  total_order lt eqb -> Forall (allowed lt) h -> is_set lt l (set_of h) -> Forall (q_sorted lt safe conv vtype) prog ->
  set_calls lt eqb safe conv vtype host prog l level = (l', level', results) ->
  exists a a' h' rs rs', srun chk true BMalloc lt eqb dflt h (new_s V BMalloc) = Ok (a, rs) /\
    q_run chk lt eqb safe conv vtype host prog (mkPS (Some a) level) = Ok (mkPS (Some a') level', results) /\
    Forall (allowed lt) h' /\ srun chk true BMalloc lt eqb dflt (h ++ h') (new_s V BMalloc) = Ok (a', rs') /\ is_set lt l' (set_of (h ++ h')).
Proof.
  intros T A [I Q] F S.
  destruct (@SortedArrayProofs.srun_ok V chk true lt eqb dflt T h (new_s V BMalloc) [] (SortedArrayProofs.new_s_ok true lt) A)
    as ([a rs] & E & l0 & H & Hl & _). cbn [fst snd] in *.
  assert (l0 = l).
  { apply (incr_unique T); [apply H|apply SortedProofs.increasing_strong; exact I|]. intros x. rewrite Q. apply Hl. }
  subst l0. destruct (@q_run_ok V dflt chk lt eqb T safe conv vtype host prog a l level F H) as (a' & P & H' & (h' & rs' & A' & W)).
  rewrite S in P, H'. cbn [fst snd] in *. exists a, a', h', rs, (rs ++ rs'). split; [exact E|]. split; [exact P|]. split; [exact A'|].
  pose proof (srun_app E W) as E'. split; [exact E'|]. split; [apply SortedProofs.increasing_strong; apply H'|].
  assert (AA : Forall (allowed lt) (h ++ h')) by (apply Forall_app; auto).
  destruct (@SortedArrayProofs.srun_ok V chk true lt eqb dflt T (h ++ h') (new_s V BMalloc) [] (SortedArrayProofs.new_s_ok true lt) AA)
    as ([a2 rs2] & E2 & l2 & H2 & Hl2 & _). cbn [fst snd] in *. rewrite E2 in E'. injection E' as -> ->.
  assert (l2 = l').
  { destruct H2 as (B2 & N2 & _), H' as (B' & N' & _). apply nth_ext with (d := dflt) (d' := dflt); [congruence|]. intros n Hn.
    destruct (nth_error l2 n) as [x|] eqn:X2; [|apply nth_error_None in X2; lia].
    destruct (nth_error l' n) as [x'|] eqn:X'; [|apply nth_error_None in X'; lia].
    pose proof (@BufferManipProofs.holds_rd _ _ _ _ _ _ B2 X2) as R2. pose proof (@BufferManipProofs.holds_rd _ _ _ _ _ _ B' X') as R'.
    rewrite R2 in R'. injection R' as ->. rewrite (nth_error_nth _ _ _ X2), (nth_error_nth _ _ _ X'). reflexivity. }
  subst l2. exact Hl2.
Qed.
Print Assumptions C68_set.

(** The same for an ArrayOfSets *)
Theorem C68_sets V (lt eqb : V -> V -> bool) (dflt : V) chk safe conv vtype imax n0 cap0 h S M level prog M' level' results :
  total_order lt eqb -> Forall (tallowed lt) h -> set_run lt h (repeat none n0) = Some S -> Forall2 (is_set lt) M S ->
  Forall (t_sorted lt safe conv vtype imax) prog ->
  sets_calls lt eqb safe conv vtype prog M level = (M', level', results) ->
  exists a a' h', tdriven chk true lt eqb dflt n0 cap0 h = Ok a /\
    t_run chk lt eqb safe conv vtype imax prog (mkPA (Some a) level) = Ok (mkPA (Some a') level', results) /\
    Forall (increasing lt) M' /\ shows chk lt eqb a' (map (fun l x => In x l) M') /\
    Forall (tallowed lt) h' /\ tdriven chk true lt eqb dflt n0 cap0 (h ++ h') = Ok a'.
Proof.
  intros T A H FM F L. pose proof (tdriven_rep T chk true dflt n0 cap0 A) as D. rewrite H in D. destruct D as [(a & E & R)|[C _]]; [|discriminate].
  assert (SR : srep lt a M).
  { split.
    - eapply AoSProofs.rep_cast; [exact R|]. clear -FM. unfold members. induction FM as [|l Q M S [_ E] FM IH]; constructor; [|exact IH]. intros x. symmetry. apply E.
    - clear -FM. induction FM as [|l Q M S [E _] FM IH]; constructor; [|exact IH]. apply SortedProofs.increasing_strong. exact E. }
  destruct (@t_run_ok V dflt chk lt eqb T safe conv vtype imax prog a M level F SR) as (a' & P & R' & (h' & A' & W)). rewrite L in P, R'. cbn [fst snd] in *.
  exists a, a', h'. split; [exact E|]. split; [exact P|]. destruct R' as [R' I']. split.
  { clear -I'. induction I'; constructor; [|assumption]. apply SortedProofs.increasing_strong. assumption. }
  split; [exact (rep_shows T chk R')|]. split; [exact A'|]. unfold tdriven in *.
  destruct (new_aoa V unit chk true true false BMalloc n0 cap0) as [x| |]; try discriminate. cbn [bind] in *.
  clear -E W. revert x E. induction h as [|c h IH]; intros x E; simpl in *; [injection E as ->; exact W|].
  destruct (tstep chk true true false BMalloc lt eqb dflt c x) as [[x' r]| |]; try discriminate. cbn [bind] in *. exact (IH _ E).
Qed.
Print Assumptions C68_sets.

(** Below RESIZEABLE, so with MODIFIABLE as with READ_ONLY, nothing that does not raise the level changes a set,
    and a view can never be written through. *)
Definition q_raises (V : Type) (c : qcall V) : bool := match c with QSetLevel l _ => (RESIZEABLE <=? l)%Z | _ => false end.
Definition t_raises (V : Type) (c : ptcall V) : bool := match c with STSetLevel l => (RESIZEABLE <=? l)%Z | _ => false end.
Theorem C68_protected V (lt eqb : V -> V -> bool) safe conv vtype host prog : forall l level,
  (level < RESIZEABLE)%Z -> existsb (@q_raises V) prog = false -> fst (fst (set_calls lt eqb safe conv vtype host prog l level)) = l.
Proof.
  induction prog as [|c p IH]; intros l level L N; [reflexivity|]. simpl in N. apply orb_false_iff in N. destruct N as [N N'].
  assert (B : fst (fst (set_call lt eqb safe conv vtype host c l level)) = l /\ (snd (fst (set_call lt eqb safe conv vtype host c l level)) < RESIZEABLE)%Z).
  { assert (E : (level <? RESIZEABLE)%Z = true) by (apply Z.ltb_lt; exact L). destruct c as [x|x| | |n sp]; cbn [set_call]; rewrite ?E; auto.
    destruct (in_int n && in_int sp); cbn [negb]; auto. destruct (sp =? host)%Z; cbn [negb]; auto. cbn [fst snd]. cbn [q_raises] in N. apply Z.leb_gt in N. auto. }
  cbn [set_calls]. destruct (set_call lt eqb safe conv vtype host c l level) as [[l1 v1] r]. cbn [fst snd] in B. destruct B as [-> B].
  specialize (IH l v1 B N'). destruct (set_calls lt eqb safe conv vtype host p l v1) as [[l2 v2] rs]. exact IH.
Qed.
Print Assumptions C68_protected.
Theorem C68_sets_protected V (lt eqb : V -> V -> bool) safe conv vtype prog : forall M level,
  (level < RESIZEABLE)%Z -> existsb (@t_raises V) prog = false -> fst (fst (sets_calls lt eqb safe conv vtype prog M level)) = M.
Proof.
  induction prog as [|c p IH]; intros M level L N; [reflexivity|]. simpl in N. apply orb_false_iff in N. destruct N as [N N'].
  assert (B : fst (fst (sets_call lt eqb safe conv vtype c M level)) = M /\ (snd (fst (sets_call lt eqb safe conv vtype c M level)) < RESIZEABLE)%Z).
  { assert (E : (level <? RESIZEABLE)%Z = true) by (apply Z.ltb_lt; exact L).
    destruct c; cbn [sets_call]; rewrite ?E; repeat match goal with |- context [ match ?x with _ => _ end ] => destruct x end; cbn [fst snd]; auto.
    cbn [t_raises] in N. apply Z.leb_gt in N. auto. }
  cbn [sets_calls]. destruct (sets_call lt eqb safe conv vtype c M level) as [[l1 v1] r]. cbn [fst snd] in B. destruct B as [-> B].
  specialize (IH M v1 B N'). destruct (sets_calls lt eqb safe conv vtype p M v1) as [[l2 v2] rs]. exact IH.
Qed.
Print Assumptions C68_sets_protected.
Theorem C68_views_not_writeable V (lt eqb : V -> V -> bool) safe conv vtype host :
  (forall c l level w vs, snd (set_call lt eqb safe conv vtype host c l level) = PView w vs -> w = false /\ vs = l) /\
  (forall c (M : list (list V)) level w vs, snd (sets_call lt eqb safe conv vtype c M level) = PView w vs -> w = false /\ In vs M) /\
  (forall c (M : list (list V)) level L, snd (sets_call lt eqb safe conv vtype c M level) = PViews L -> L = map (pair false) M).
Proof.
  split; [|split]; intros c M level; destruct c; cbn [set_call sets_call]; intros *;
    repeat match goal with |- context [ match ?x with _ => _ end ] => let X := fresh "X" in destruct x eqn:X end; cbn [snd]; intros E; try discriminate E; injection E; intros; subst; auto.
  split; [reflexivity|]. apply nth_In. unfold norm in X.
  destruct ((in_ll i) && ((0 <=? i) && (i <? Z.of_nat (length M))))%Z eqn:B1.
  - injection X as <-. apply andb_prop in B1. destruct B1 as [_ B1]. apply andb_prop in B1. destruct B1 as [B1 B2]. apply Z.leb_le in B1. apply Z.ltb_lt in B2. lia.
  - destruct ((in_ll i) && ((i <? 0) && (0 <=? i + Z.of_nat (length M))))%Z eqn:B2; [|discriminate]. injection X as <-.
    apply andb_prop in B2. destruct B2 as [_ B2]. apply andb_prop in B2. destruct B2 as [B2 B3]. apply Z.ltb_lt in B2. apply Z.leb_le in B3. lia.
Qed.
Print Assumptions C68_views_not_writeable.

(** Objects without a set behind them: every method of SortedArray raises RuntimeError, of ArrayOfSets only some. *)
Theorem C68_uninitialised V chk (lt eqb : V -> V -> bool) safe conv vtype host c level :
  q_step chk lt eqb safe conv vtype host c (mkPS None level) = Ok (mkPS None level, PRaise ERuntime).
Proof. destruct c as [[o|]|[o|]| | |n s]; reflexivity. Qed.
Print Assumptions C68_uninitialised.
Theorem C68_uninitialised_refuted V chk (lt eqb : V -> V -> bool) safe conv vtype imax level (c : ptcall V) :
  match c with
  | STInsertInto _ (TVObj _) | STEraseFrom _ (TVObj _) | STInsert _ _ => True
  | STDel i | STSetItem i => (0 <= i)%Z /\ in_ll i = true
  | _ => False
  end ->
  t_step chk lt eqb safe conv vtype imax c (mkPA None level) = Fault FDangling.
Proof.
  intros H. destruct c as [|i| |i|i|i j v|i [o|k]|i n|i [o|k]| |l]; try contradiction; try reflexivity;
    destruct H as [H1 H2]; cbn [t_step]; unfold seq_index; rewrite H2; cbn; apply Z.ltb_ge in H1; rewrite H1; reflexivity.
Qed.
Print Assumptions C68_uninitialised_refuted.

(** A capacity too large for INDEX_TYPE is not an exception: the process ends. *)
Theorem C68_capacity_refuted V chk (lt eqb : V -> V -> bool) safe conv vtype imax (a : aoa V unit) level i cap :
  (RESIZEABLE <= level)%Z -> in_ll i = true -> in_ll cap = true -> (0 <= i <= Z.of_nat (numArrays a))%Z -> (0 <= imax < cap)%Z ->
  t_step chk lt eqb safe conv vtype imax (STInsert i cap) (mkPA (Some a) level) = Abort.
Proof.
  intros L I C B M. cbn [t_step]. unfold t_insert. cbn [pa_array pa_level deref bind]. rewrite I, C. cbn [negb andb].
  replace (level <? RESIZEABLE)%Z with false by (symmetry; apply Z.ltb_ge; lia). replace (i <? 0)%Z with false by (symmetry; apply Z.ltb_ge; lia).
  replace (Z.of_nat (numArrays a) <? i)%Z with false by (symmetry; apply Z.ltb_ge; lia). replace (cap <? 0)%Z with false by (symmetry; apply Z.ltb_ge; lia).
  replace (imax <? cap)%Z with true by (symmetry; apply Z.ltb_lt; lia). reflexivity.
Qed.
Print Assumptions C68_capacity_refuted.

(** Nothing checks that the values are sorted. Whatever a non-empty set has gone through, s.insert( [m, v] ) with its
    least element m and some v < m writes in front of the allocation. *)
Lemma insert_below V chk (lt eqb : V -> V -> bool) (a : sarray V) m rest v : total_order lt eqb ->
  SortedArrayProofs.sa_ok true lt a (m :: rest) -> lt v m = true -> s_inserts chk true BMalloc lt eqb a [m; v] = Fault FOob.
Proof.
  intros T (H & Hs & I) Lt. inversion I as [|? ? I' F]; subst. rewrite Forall_forall in F.
  assert (Fv : Forall (fun x => lt x v = false) (m :: rest)).
  { apply Forall_forall. intros x Hx. destruct (lt x v) eqn:E; [|reflexivity]. exfalso.
    assert (lt v x = true) as E' by (destruct Hx as [<-|Hx]; [exact Lt|exact (lt_trans T Lt (F x Hx))]).
    pose proof (lt_trans T E E') as C. rewrite (lt_irr T) in C. discriminate. }
  assert (Nm : eqb m v = false).
  { destruct (eqb m v) eqn:E; [|reflexivity]. apply (to_eq T) in E. subst v. rewrite (lt_irr T) in Lt. discriminate. }
  assert (Em : eqb m m = true) by (apply (to_eq T); reflexivity).
  assert (Fi : forall b, BufferManipProofs.holds true b (m :: rest) -> find lt b 0 (s_size a) v = Ok 0).
  { intros b [k Hm]. apply (@SortedProofs.find_ok V true lt b [] (repeat MemProofs.LN k) [] (m :: rest) v 0 (s_size a)); auto. }
  assert (Rd : forall b, BufferManipProofs.holds true b (m :: rest) -> rd b 0 = Ok m).
  { intros b Hb. exact (@BufferManipProofs.holds_rd _ _ _ _ 0 _ Hb eq_refl). }
  assert (Z0 : 0 =? s_size a = false) by (rewrite Hs; reflexivity).
  unfold s_inserts, inserts. replace (s_size a =? 0) with false by (rewrite Hs; reflexivity). cbn [rev app].
  cbn [count_loop]. rewrite (Fi _ H). cbn [bind]. rewrite Z0. cbn [Nat.add]. rewrite (Rd _ H). cbn [bind negb]. rewrite Nm. cbn [negb].
  replace (find lt (s_buf a) 0 0 m) with (@Ok nat 0) by reflexivity. cbn [bind]. rewrite Z0, (Rd _ H). cbn [bind]. rewrite Em. cbn [negb s_cb cb_inc fst].
  rewrite Hs. destruct (@BufferManipProofs.dynamicReserve_ok V chk true BMalloc (s_buf a) (m :: rest) (length (m :: rest) + 1) H) as (b & Eb & Hb & Lb).
  { left. reflexivity. }
  rewrite Eb. cbn [bind Nat.eqb]. cbn [insert_loop]. rewrite <- Hs. rewrite (Fi _ Hb). cbn [bind]. rewrite Z0. cbn [Nat.add]. rewrite (Rd _ Hb). cbn [bind]. rewrite Nm.
  destruct Hb as [k Hm]. assert (Hk : exists k', k = S k').
  { destruct k as [|k']; [|eauto]. exfalso. pose proof (MemProofs.mem_length Hm) as Q. rewrite app_length, map_length in Q. cbn [repeat length] in Q, Lb.
    destruct (Nat.ltb_spec (length (s_buf a)) (S (length rest) + 1)); lia. }
  destruct Hk as (k' & ->).
  destruct (@ArrayManipProofs.shiftUp_ok V chk true b [] [] (m :: rest) 1 (repeat MemProofs.LN k') 0 (s_size a) 0 Hm eq_refl eq_refl Hs) as (b1 & E1 & M1).
  rewrite E1. cbn [bind]. rewrite sub_ix_ok by lia. cbn [bind Nat.sub].
  destruct (@MemProofs.construct_ok V true b1 [] MemProofs.LN (map MemProofs.LV (m :: rest) ++ repeat MemProofs.LN k') 0 v M1 eq_refl Logic.I) as (b2 & E2 & M2).
  rewrite E2. cbn [bind s_cb cb_ev]. unfold find, find_loop. cbn [Nat.eqb bind]. unfold ArrayManip.shiftUp, ArrayManip.check_insert_bounds.
  rewrite BaseProofs.check_if_ok by reflexivity. reflexivity.
Qed.
Theorem C68_unsorted_refuted V (lt eqb : V -> V -> bool) (dflt : V) chk safe conv vtype host h m rest v level obj :
  total_order lt eqb -> Forall (allowed lt) h -> is_set lt (m :: rest) (set_of h) -> lt v m = true ->
  (RESIZEABLE <= level)%Z -> parseNumPyArray safe conv vtype obj = inl [m; v] ->
  exists a rs, srun chk true BMalloc lt eqb dflt h (new_s V BMalloc) = Ok (a, rs) /\
    q_step chk lt eqb safe conv vtype host (QInsert (QObj obj)) (mkPS (Some a) level) = Fault FOob.
Proof.
  intros T A [I Q] Lt L O.
  destruct (@SortedArrayProofs.srun_ok V chk true lt eqb dflt T h (new_s V BMalloc) [] (SortedArrayProofs.new_s_ok true lt) A)
    as ([a rs] & E & l0 & H & Hl & _). cbn [fst snd] in *.
  assert (l0 = m :: rest).
  { apply (incr_unique T); [apply H|apply SortedProofs.increasing_strong; exact I|]. intros x. rewrite Q. apply Hl. }
  subst l0. exists a, rs. split; [exact E|]. cbn [q_step]. unfold q_change. cbn [q_arg bind ps_set ps_level].
  replace (level <? RESIZEABLE)%Z with false by (symmetry; apply Z.ltb_ge; lia). rewrite O, (insert_below chk T H Lt). reflexivity.
Qed.
Print Assumptions C68_unsorted_refuted.

(** What else unsorted or repeated values do: a set with 5 twice, a set out of order, a set that loses the element 1 too (with
    bounds checks the process ends), a negative size, and in an ArrayOfSets an element of the neighbouring set overwritten. *)
Definition set_of_values (a : sarray nat) : outcome (list nat) := read_values (s_buf a) 0 (s_size a).
Definition on_set (chk : bool) (h : list (scall nat)) (prog : list (qcall nat)) : outcome (list nat * list (pres nat)) :=
  '(a, _) <- srun chk true BMalloc Nat.ltb Nat.eqb 0 h (new_s nat BMalloc) ;;
  '(s, r) <- q_run chk Nat.ltb Nat.eqb Nat.eqb (fun _ _ v => v) 5 0 prog (mkPS (Some a) RESIZEABLE) ;;
  match ps_set s with Some a' => x <- set_of_values a' ;; Ok (x, r) | None => Fault FDangling end.
Definition on_sets (chk : bool) (h : list (tcall nat)) (level : Z) (prog : list (ptcall nat)) : outcome (list (list nat) * Z * list (pres nat)) :=
  a <- tdriven chk true Nat.ltb Nat.eqb 0 0 0 h ;;
  '(s, r) <- t_run chk Nat.ltb Nat.eqb Nat.eqb (fun _ _ v => v) 5 1000 prog (mkPA (Some a) level) ;;
  match pa_array s with Some a' => x <- PropOwn.all_rows a' ;; Ok (x, pa_level s, r) | None => Fault FDangling end.
Definition qobj (l : list nat) : qvals nat := QObj (Some (mkN 1 true 5 l)).
Definition tobj (l : list nat) : tvals nat := TVObj (Some (mkN 1 true 5 l)).
Theorem C68_repeated_refuted :
  on_set true [SInsertRange [1; 9]] [QInsert (qobj [5; 5])] = Ok ([1; 5; 5; 9], [PInt 2]) /\
  on_set true [] [QInsert (qobj [3; 1; 2])] = Ok ([3; 1; 2], [PInt 3]) /\
  on_set true [SInsertRange [1; 5; 9]] [QRemove (qobj [5; 5])] = Abort /\
  on_set false [SInsertRange [1; 5; 9]] [QRemove (qobj [5; 5])] = Ok ([9], [PInt 2]) /\
  on_set false [SInsertRange [5]] [QRemove (qobj [5; 5])] = Fault FOob /\
  on_sets true [TInsertSet 0 2; TInserts 0 [1; 2]; TInsertSet 1 4; TInserts 1 [5; 6]] RESIZEABLE [STInsertInto 1 (tobj [5; 4])]
    = Ok ([[1; 5]; [4; 5; 6]], RESIZEABLE, [PInt 1]).
Proof. vm_compute. repeat split. Qed.
Print Assumptions C68_repeated_refuted.

Example C68_case :
  on_set true [SInsertRange [2; 4]] [QInsert (qobj [1; 2; 3]); QToNumPy; QRemove (qobj [0; 2; 4]); QRemove QOwn; QSetLevel 1 7; QSetLevel 1 0; QInsert (qobj [9])]
    = Ok ([1; 3], [PInt 2; PView false [1; 2; 3; 4]; PInt 2; PRaise ERuntime; PRaise EValue; PNone; PRaise ERuntime]) /\
  set_calls Nat.ltb Nat.eqb Nat.eqb (fun _ _ v => v) 5 0 [QInsert (qobj [1; 2; 3]); QRemove (qobj [0; 2; 4])] [2; 4] RESIZEABLE
    = ([1; 3], RESIZEABLE, [PInt 2; PInt 2]) /\
  on_sets true [TInsertSet 0 2; TInserts 0 [1; 2]] READ_ONLY
    [STGet 0; STInsert 1 3; STSetLevel RESIZEABLE; STInsert 1 3; STInsertInto 1 (tobj [4; 6; 8; 9]); STEraseFrom 0 (tobj [0; 1]); STEraseFrom 0 (TVObj None);
     STSetElem 0 0 7; STInsertInto (-1) (tobj []); STInsertInto 0 (TVOwn (-1)); STIter; STDel (-1); STLen; STInsert 0 (-1)]
    = Ok ([[2]], RESIZEABLE, [PView false [1; 2]; PRaise ERuntime; PNone; PNone; PInt 4; PInt 1; PRaise ESystem; PRaise EValue; PRaise EIndex; PRaise ERuntime;
       PViews [(false, [2]); (false, [4; 6; 8; 9])]; PNone; PInt 1; PRaise EValue]) /\
  q_sorted Nat.ltb Nat.eqb (fun _ _ v => v) 5 (QInsert (qobj [1; 2; 3])).
Proof.
  repeat split; try (vm_compute; reflexivity). intros vs H. vm_compute in H. injection H as <-. apply SortedProofs.increasing_strong. repeat constructor.
Qed.
