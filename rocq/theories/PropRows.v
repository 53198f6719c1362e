(** Row-parallel modification through views (C35): the theorems and their non-vacuity examples. *)
From Coq Require Import List Arith ZArith Lia Bool Sorted.
From Verif Require Import Base BaseProofs Mem BufferManip SortedSpec SortedArraySpec AoA AoASpec AoS AoSSpec Sparsity SparsitySpec CRS CRSSpec Conc Prog ViewProg RowSpec RowCalls.
From Verif Require AoALayout AoAProofs AoAProofs4 SetsProofs SetsProofs2 SparsityProofs CRSProofs2 SortedProofs ProgProofs RowPar RowInst RowInst2 PropAoA PropAtomic PropAoS PropSparsity PropCRS.
Import ListNotations.
Set Implicit Arguments.

Notation p_calls := RowPar.p_calls.
Notation f_calls := RowPar.f_calls.
(** All threads have returned. *)
Notation done := ProgProofs.done.

(** However the accesses of the threads [ps] to the memory of [a] are interleaved: none of them is an invalid access or
    ends in the error handler, no two of them are a data race, the threads finish if they are allowed to go on for long enough, and then thread [t] has
    returned the [t]-th of [rss] and the memory is that of [a']. *)
Definition every_order {V W R} (a : aoa V W) (ps : list (prog V W (list R))) (a' : aoa V W) (rss : list (list R)) : Prop :=
  exists steps, forall sched, exists h' ths', exec (@access V W (list R)) sched (heap_of a) ps = Ok (h', ths') /\ no_race ths' /\
    (fair (length ps) steps sched -> done ths') /\
    (done ths' -> ths' = map Ret rss /\ forall b i, h' b i = heap_of a' b i).

(** What can be read from the array of arrays of a container: the lists of values and the capacities. *)
Definition reads {V W} (chk : bool) (a : aoa V W) (N : list (list V)) (caps : list nat) : Prop :=
  numArrays a = length N /\ length caps = length N /\
  (forall i r, nth_error N i = Some r -> sizeOfArray chk a i = Ok (length r)) /\
  (forall i r j v, nth_error N i = Some r -> nth_error r j = Some v -> aoa_at chk a i j = Ok v) /\
  (forall i c, nth_error caps i = Some c -> capacityOfArray chk a i = Ok c).
(** The same of a matrix. *)
Definition mreads {W} (chk : bool) (p : pattern W) (N : list (list (Z * W))) (caps : list nat) : Prop :=
  reads chk (rows p) (map (map fst) N) caps /\
  forall i r j x, nth_error N i = Some r -> nth_error r j = Some x -> entry chk p i j = Ok (snd x).

Section Help.
Variables P V W : Type.
Variable fv : P -> V.
Variable fw : P -> W.
Variable chk tv tw dual : bool.
Notation aok := (@AoAProofs.aok P V W fv fw tv tw dual).
Lemma split_nth {A} (l : list A) i x : nth_error l i = Some x -> exists l1 l2, l = l1 ++ x :: l2 /\ length l1 = i.
Proof. apply nth_error_split. Qed.
Lemma aok_reads a L : aok a L -> reads chk a (map (fun x => map fv (fst x)) L) (map (@AoALayout.wid P) L).
Proof.
  intros H. pose proof H as [Ia _]. split; [rewrite map_length; apply Ia|]. split; [rewrite !map_length; reflexivity|].
  assert (At : forall i x, nth_error L i = Some x -> exists A l k B, L = A ++ (l, k) :: B /\ length A = i /\ x = (l, k)).
  { intros i [l k] N. apply split_nth in N. destruct N as (A & B & -> & <-). eauto 10. }
  split; [|split].
  - intros i r N. rewrite nth_error_map in N. destruct (nth_error L i) as [x|] eqn:Nx; [|discriminate]. injection N as <-.
    destruct (At _ _ Nx) as (A & l & k & B & -> & <- & ->). cbn [fst]. rewrite map_length. exact (SetsProofs.row_size chk Ia).
  - intros i r j v N Nv. rewrite nth_error_map in N. destruct (nth_error L i) as [x|] eqn:Nx; [|discriminate]. injection N as <-.
    destruct (At _ _ Nx) as (A & l & k & B & -> & <- & ->). cbn [fst] in Nv. rewrite nth_error_map in Nv. destruct (nth_error l j) as [y|] eqn:Ny; [|discriminate].
    injection Nv as <-. exact (@RowInst2.read_at P V W fv fw chk tv tw dual a A l k B j y H Ny).
  - intros i c N. rewrite nth_error_map in N. destruct (nth_error L i) as [x|] eqn:Nx; [|discriminate]. injection N as <-.
    destruct (At _ _ Nx) as (A & l & k & B & -> & <- & ->). exact (SetsProofs.row_capacity chk Ia).
Qed.
End Help.
Lemma idreads V W (fw : V -> W) chk tv tw dual a L : @AoAProofs.aok V V W (fun v => v) fw tv tw dual a L -> reads chk a (map fst L) (map (@AoALayout.wid V) L).
Proof.
  intros H. pose proof (aok_reads chk H) as R. replace (map fst L) with (map (fun x => map (fun v : V => v) (fst x)) L); auto.
  apply map_ext. intros x. apply map_id.
Qed.

(** C35, ArrayOfArraysView: threads work on different arrays of an ArrayOfArrays made by any history. Each thread makes
    any sequence of calls of emplaceBack, appendToArray, emplace, insertIntoArray, eraseFromArray, a( i, j ) = v,
    a( i, j ) and sizeOfArray( i ) for which the capacities are enough. *)
Theorem C35_arrays : forall V (dflt : V) chk tv n0 cap0 h M a ths M' rs,
  vec_run dflt h (repeat [] n0) = Some M -> PropAoA.driven chk tv dflt n0 cap0 h = Ok a ->
  separate ths -> calls_run v_next (cap_run dflt h (repeat [] n0) (repeat cap0 n0)) (concat ths) M = Some (M', rs) ->
  exists a' rss, rs = concat rss /\ f_calls (f_vcall chk tv) (concat ths) a = Ok (a', rs) /\ PropAoA.displays chk a' M' /\
    every_order a (map (p_calls (p_vcall unit chk tv) (numArrays a)) ths) a' rss.
Proof.
  intros V dflt chk tv n0 cap0 h M a ths M' rs H E S C. pose proof (PropAtomic.driven_arep chk tv dflt n0 cap0 h H E) as (L & Ok1 & <- & Ew).
  rewrite <- Ew in C. destruct (@RowInst.arrays_top V unit (fun _ => tt) chk tv true a L ths M' rs Ok1 S C) as (a' & rss & L' & H1 & H2 & H3 & <- & H5 & steps & H6).
  exists a', rss. split; [exact H1|]. split; [exact H2|]. split.
  - apply (@PropAoA.rep_displays V chk tv a' (map fst L') (map (@AoALayout.wid V) L')). exists L'. auto.
  - exists steps. rewrite map_length. exact H6.
Qed.
Print Assumptions C35_arrays.

(** C35, ArrayOfSetsView: insertIntoSet, removeFromSet of one value or a sorted range, contains, a( i, j ), sizeOfSet.
    The sets [N] and the capacities are what the user reads. *)
Theorem C35_sets : forall V (lt eqb : V -> V -> bool) (dflt : V) chk tv n0 cap0 h M a, total_order lt eqb ->
  Forall (tallowed lt) h -> set_run lt h (repeat none n0) = Some M -> PropAoS.tdriven chk tv lt eqb dflt n0 cap0 h = Ok a ->
  exists N caps, reads chk a N caps /\ Forall2 (is_set lt) N M /\
    forall ths N' rs, separate ths -> calls_run (s_next lt eqb) caps (concat ths) N = Some (N', rs) ->
    exists a' rss, rs = concat rss /\ f_calls (f_scall chk tv lt eqb) (concat ths) a = Ok (a', rs) /\
      reads chk a' N' caps /\ Forall (increasing lt) N' /\
      every_order a (map (p_calls (p_scall unit chk tv lt eqb) (numArrays a)) ths) a' rss.
Proof.
  intros V lt eqb dflt chk tv n0 cap0 h M a T F H E. pose proof (PropAoS.tdriven_rep T chk tv dflt n0 cap0 F) as D. rewrite H, E in D.
  destruct D as [(a0 & E0 & (L & Ok1 & F2))|[_ E0]]; [|discriminate]. injection E0 as <-.
  exists (map fst L), (map (@AoALayout.wid V) L). split; [exact (idreads chk Ok1)|].
  assert (Inc : Forall (fun x => StronglySorted (fun x y : V => lt x y = true) (fst x)) L).
  { clear - F2. induction F2 as [|x S L M [I _] F2 IH]; constructor; auto. }
  split.
  - clear - F2 T. induction F2 as [|x S L M [I Rs] F2 IH]; cbn; constructor; auto. split; auto. apply (SortedProofs.increasing_strong lt). exact I.
  - intros ths N' rs S C. destruct (@RowInst2.sets_top V unit (fun _ => tt) chk tv true lt eqb T a L ths N' rs Ok1 Inc S C) as (a' & rss & L' & H1 & H2 & H3 & H3' & <- & H5 & steps & H6).
    exists a', rss. split; [exact H1|]. split; [exact H2|]. split; [rewrite <- H5; exact (idreads chk H3)|]. split.
    + rewrite Forall_map. eapply Forall_impl; [|exact H3']. intros x I. apply (SortedProofs.increasing_strong lt). exact I.
    + exists steps. rewrite map_length. exact H6.
Qed.
Print Assumptions C35_sets.

(** C35, SparsityPatternView: insertNonZero(s), removeNonZero(s), empty( row, col ), getColumns( row )[ j ], numNonZeros( row ). *)
Theorem C35_patterns : forall chk cmax nr nc cap h M nc' p, (Z.of_nat nc - 1 <= cmax)%Z ->
  pvalid cmax h (repeat none nr, nc) -> pat_run cmax h (repeat none nr, nc) = Some (M, nc') -> PropSparsity.pdriven chk cmax nr nc cap h = Ok p ->
  exists N caps, reads chk (rows p) N caps /\ Forall2 (is_set Z.ltb) N M /\
    forall ths N' rs, separate ths -> calls_run (p_next nc') caps (concat ths) N = Some (N', rs) ->
    exists a' rss, rs = concat rss /\ f_calls (f_pcall chk nc') (concat ths) (rows p) = Ok (a', rs) /\
      reads chk a' N' caps /\ Forall (increasing Z.ltb) N' /\
      every_order (rows p) (map (p_calls (p_pcall unit chk nc') (numArrays (rows p))) ths) a' rss.
Proof.
  intros chk cmax nr nc cap h M nc' p Hc Vh H E. pose proof (@PropSparsity.pdriven_rep chk cmax nr nc cap h Hc Vh) as D. rewrite H, E in D.
  destruct D as (p0 & E0 & R). injection E0 as <-. destruct R as ((L & Ok1 & F2) & _). cbn [fst] in F2.
  exists (map fst L), (map (@AoALayout.wid Z) L). split; [exact (idreads chk Ok1)|].
  assert (Inc : Forall (fun x => StronglySorted (fun x y : Z => Z.ltb x y = true) (fst x)) L).
  { clear - F2. induction F2 as [|x S L M [I _] F2 IH]; constructor; auto. }
  split.
  - clear - F2. induction F2 as [|x S L M [I Rs] F2 IH]; cbn; constructor; auto. split; auto. apply (SortedProofs.increasing_strong Z.ltb). exact I.
  - intros ths N' rs S C. destruct (@RowInst2.patterns_top unit (fun _ => tt) chk true nc' (rows p) L ths N' rs Ok1 Inc S C) as (a' & rss & L' & H1 & H2 & H3 & H3' & <- & H5 & steps & H6).
    exists a', rss. split; [exact H1|]. split; [exact H2|]. split; [rewrite <- H5; exact (idreads chk H3)|]. split.
    + rewrite Forall_map. eapply Forall_impl; [|exact H3']. intros x I. apply (SortedProofs.increasing_strong Z.ltb). exact I.
    + exists steps. rewrite map_length. exact H6.
Qed.
Print Assumptions C35_patterns.

(** C35, CRSMatrixView: insertNonZero(s), removeNonZero(s), empty( row, col ), getColumns( row )[ j ], getEntries( row )[ j ],
    numNonZeros( row ), setting all entries of the row. *)
Theorem C35_matrices : forall W add zero chk tw cmax nr nc cap (h : list (ccall W)) M nc' p, (Z.of_nat nc - 1 <= cmax)%Z ->
  cvalid add zero tw cmax h (repeat none nr, nc) -> mat_run add zero cmax h (repeat none nr, nc) = Some (M, nc') ->
  PropCRS.cdriven add zero chk tw cmax nr nc cap h = Ok p ->
  exists N caps, mreads chk p N caps /\ Forall2 (fun l S => increasing Z.ltb (map fst l) /\ forall e, In e l <-> S e) N M /\
    forall ths N' rs, separate ths -> calls_run m_next caps (concat ths) N = Some (N', rs) ->
    exists a' rss, rs = concat rss /\ f_calls (f_mcall chk nc' tw) (concat ths) (rows p) = Ok (a', rs) /\
      mreads chk (mkSP a' nc') N' caps /\ Forall (fun l => increasing Z.ltb (map fst l)) N' /\
      every_order (rows p) (map (p_calls (p_mcall chk tw) (numArrays (rows p))) ths) a' rss.
Proof.
  intros W add zero chk tw cmax nr nc cap h M nc' p Hc Vh H E. pose proof (@PropCRS.cdriven_rep W add zero chk tw cmax nr nc cap h Hc Vh) as D. rewrite H, E in D.
  destruct D as [(p0 & E0 & R)|[_ E0]]; [|discriminate]. injection E0 as <-. destruct R as ((L & Ok1 & F2) & En & _). cbn [fst snd] in *.
  assert (Mr : forall a L', AoAProofs.aok fst snd true tw true a L' -> mreads chk (mkSP a nc') (map fst L') (map (@AoALayout.wid (Z * W)) L')).
  { clear. intros a L' H. split.
    - cbn [rows]. pose proof (aok_reads chk H) as R. rewrite map_map. exact R.
    - intros i r j x N Nx. rewrite nth_error_map in N. destruct (nth_error L' i) as [[l k]|] eqn:Nl; [|discriminate]. injection N as <-.
      apply nth_error_split in Nl. destruct Nl as (A & B & -> & <-). eapply RowInst2.read_entry; [exact H|exact Nx]. }
  exists (map fst L), (map (@AoALayout.wid (Z * W)) L). split; [destruct p as [a n]; cbn in En, Ok1; subst n; apply Mr; exact Ok1|].
  assert (Inc : Forall (fun x => StronglySorted (fun x y : Z * W => Z.ltb (fst x) (fst y) = true) (fst x)) L).
  { clear - F2. induction F2 as [|x S L M [I _] F2 IH]; constructor; auto. }
  assert (Cv : forall l : list (Z * W), StronglySorted (fun x y : Z * W => Z.ltb (fst x) (fst y) = true) l -> increasing Z.ltb (map fst l)).
  { intros l I. apply (SortedProofs.increasing_strong Z.ltb). apply (SortedProofs2.map_key_incr Z.ltb fst). exact I. }
  split.
  - clear - F2 Cv. induction F2 as [|x S L M [I Rs] F2 IH]; cbn; constructor; auto.
  - intros ths N' rs S C. destruct (@RowInst2.matrices_top W chk tw nc' (rows p) L ths N' rs Ok1 Inc S C) as (a' & rss & L' & H1 & H2 & H3 & H3' & <- & H5 & steps & H6).
    exists a', rss. split; [exact H1|]. split; [exact H2|]. split; [rewrite <- H5; apply Mr; exact H3|]. split.
    + rewrite Forall_map. eapply Forall_impl; [|exact H3']. intros x I. apply Cv. exact I.
    + exists steps. rewrite map_length. exact H6.
Qed.
Print Assumptions C35_matrices.

(** Non-vacuity: two threads on three arrays; an interleaving with the accesses alternating. *)
Definition alternate (n : nat) : list nat := concat (repeat [1; 0] n).
Definition values {V} (c : option (cell V)) : option V := match c with Some (Obj v) => Some v | _ => None end.
Definition hr : list (acall nat) := [AEmplaceBack 0 1; AEmplaceBack 0 2; AEmplaceBack 1 5; AEmplaceBack 2 7].
Definition tr : list (list (nat * vcall nat)) :=
  [[(0, VEmplace 1 9); (0, VBack 4); (2, VErase 0 1); (0, VGet 1)]; [(1, VInsert 0 [3; 4]); (1, VSize)]].
Example C35_arrays_case :
  vec_run 0 hr (repeat [] 3) = Some [[1; 2]; [5]; [7]] /\ separate tr /\
  calls_run v_next (cap_run 0 hr (repeat [] 3) (repeat 4 3)) (concat tr) [[1; 2]; [5]; [7]] =
    Some ([[1; 9; 2; 4]; [3; 4; 5]; []], [Done; Done; Done; Value 9; Done; Count 3]) /\
  (a <- PropAoA.driven true true 0 3 4 hr ;;
   '(h, ths) <- exec (@access nat unit _) (alternate 100) (heap_of a) (map (p_calls (p_vcall unit true true) (numArrays a)) tr) ;;
   Ok (map (fun i => values (h BVals i)) (seq 0 8), map (fun i => values (h BSizes i)) (seq 0 3), ths)) =
  Ok ([Some 1; Some 9; Some 2; Some 4; Some 3; Some 4; Some 5; None], [Some 4; Some 3; Some 0],
      [Ret [Done; Done; Done; Value 9]; Ret [Done; Count 3]]).
Proof.
  split; [reflexivity|]. split; [|split; [reflexivity|vm_compute; reflexivity]].
  intros [|[|t]] [|[|u]] q q' i; cbn; intros E E'; try congruence; try discriminate; try (destruct t; discriminate); try (destruct u; discriminate);
    injection E as <-; injection E' as <-; cbn; lia.
Qed.
(** Two threads on the same array: with this interleaving one of the two values is lost. *)
Theorem C35_same_array_refuted : exists (h : list (acall nat)) (ths : list (list (nat * vcall nat))) a h' ths',
  ~ separate ths /\ PropAoA.driven true true 0 1 4 h = Ok a /\
  calls_run v_next (cap_run 0 h (repeat [] 1) (repeat 4 1)) (concat ths) [[1]] = Some ([[1; 2; 3]], [Done; Done]) /\
  exec (@access nat unit _) (alternate 100) (heap_of a) (map (p_calls (p_vcall unit true true) (numArrays a)) ths) = Ok (h', ths') /\
  ths' = [Ret [Done]; Ret [Done]] /\ h' BSizes 0 = Some (Obj 2).
Proof.
  exists [AEmplaceBack 0 1], [[(0, VBack 2)]; [(0, VBack 3)]].
  do 3 eexists. split; [intros S; apply (S 0 1 [(0, VBack 2)] [(0, VBack 3)] 0); cbn; auto; lia|].
  split; [vm_compute; reflexivity|]. split; [vm_compute; reflexivity|]. split; [vm_compute; reflexivity|]. split; reflexivity.
Qed.

Definition hs : list (tcall nat) := [TInsert 0 5; TInsert 0 1; TInsert 1 8].
Definition ts : list (list (nat * scall nat)) := [[(0, SInserts [1; 3; 7]); (0, SContains 4); (0, SGet 1)]; [(1, SRemove 8); (1, SInsert 2); (1, SSize)]].
Example C35_sets_case :
  Forall (tallowed Nat.ltb) hs /\ (exists M, set_run Nat.ltb hs (repeat none 2) = Some M) /\ separate ts /\
  calls_run (s_next Nat.ltb Nat.eqb) [5; 5] (concat ts) [[1; 5]; [8]] = Some ([[1; 3; 5; 7]; [2]], [Count 2; Truth false; Value 3; Truth true; Truth true; Count 1]) /\
  (a <- PropAoS.tdriven true true Nat.ltb Nat.eqb 0 2 5 hs ;;
   '(h, ths) <- exec (@access nat unit _) (alternate 200) (heap_of a) (map (p_calls (p_scall unit true true Nat.ltb Nat.eqb) (numArrays a)) ts) ;;
   Ok (map (fun i => values (h BVals i)) (seq 0 6), map (fun i => values (h BSizes i)) (seq 0 2), ths)) =
  Ok ([Some 1; Some 3; Some 5; Some 7; None; Some 2], [Some 4; Some 1],
      [Ret [Count 2; Truth false; Value 3]; Ret [Truth true; Truth true; Count 1]]).
Proof.
  split; [repeat constructor|]. split; [eexists; reflexivity|]. split; [|split; [reflexivity|vm_compute; reflexivity]].
  intros [|[|t]] [|[|u]] q q' i; cbn; intros E E'; try congruence; try discriminate; try (destruct t; discriminate); try (destruct u; discriminate);
    injection E as <-; injection E' as <-; cbn; lia.
Qed.
Definition tp : list (list (nat * scall Z)) := [[(0, SInserts [1; 3; 4]%Z); (0, SContains 0%Z)]; [(1, SRemove 2%Z); (1, SInsert 0%Z)]].
Example C35_patterns_case :
  separate tp /\ calls_run (p_next 5) [5; 5] (concat tp) [[1%Z]; [2%Z]] = Some ([[1; 3; 4]; [0]]%Z, [Count 2; Truth true; Truth true; Truth true]) /\
  (p <- PropSparsity.pdriven true 100 2 5 5 [PInsert 0 1%Z; PInsert 1 2%Z] ;;
   '(h, ths) <- exec (@access Z unit _) (alternate 200) (heap_of (rows p)) (map (p_calls (p_pcall unit true 5) (numArrays (rows p))) tp) ;;
   Ok (map (fun i => values (h BVals i)) (seq 0 6), map (fun i => values (h BSizes i)) (seq 0 2), ths)) =
  Ok ([Some 1%Z; Some 3%Z; Some 4%Z; None; None; Some 0%Z], [Some 3; Some 1], [Ret [Count 2; Truth true]; Ret [Truth true; Truth true]]).
Proof.
  split; [|split; [reflexivity|vm_compute; reflexivity]].
  intros [|[|t]] [|[|u]] q q' i; cbn; intros E E'; try congruence; try discriminate; try (destruct t; discriminate); try (destruct u; discriminate);
    injection E as <-; injection E' as <-; cbn; lia.
Qed.
Definition tm : list (list (nat * mcall Z)) :=
  [[(0, MInserts [(0, 10); (1, 11); (4, 14)]%Z); (0, MEntry 1)]; [(1, MRemove 2%Z); (1, MInsert 0%Z 20%Z); (1, MInsert 3%Z 23%Z); (1, MSet 6%Z)]].
Example C35_matrices_case :
  separate tm /\ calls_run m_next [5; 5] (concat tm) [[(1, 5)]; [(2, 7)]]%Z =
    Some ([[(0, 10); (1, 5); (4, 14)]; [(0, 6); (3, 6)]]%Z, [Count 2; Value (inr 5%Z); Truth true; Truth true; Truth true; Done]) /\
  (p <- PropCRS.cdriven Z.add 0%Z true true 100 2 5 5 [CInsert 0 1%Z 5%Z; CInsert 1 2%Z 7%Z] ;;
   '(h, ths) <- exec (@access Z Z _) (alternate 300) (heap_of (rows p)) (map (p_calls (p_mcall true true) (numArrays (rows p))) tm) ;;
   Ok (map (fun i => values (h BVals i)) (seq 0 7), map (fun i => values (h BEnts i)) (seq 0 7), map (fun i => values (h BSizes i)) (seq 0 2), ths)) =
  Ok ([Some 0; Some 1; Some 4; None; None; Some 0; Some 3]%Z, [Some 10; Some 5; Some 14; None; None; Some 6; Some 6]%Z, [Some 3; Some 2],
      [Ret [Count 2; Value (inr 5%Z)]; Ret [Truth true; Truth true; Truth true; Done]]).
Proof.
  split; [|split; [reflexivity|vm_compute; reflexivity]].
  intros [|[|t]] [|[|u]] q q' i; cbn; intros E E'; try congruence; try discriminate; try (destruct t; discriminate); try (destruct u; discriminate);
    injection E as <-; injection E' as <-; cbn; lia.
Qed.
