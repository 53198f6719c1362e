(** Printing of SortedArray, ArrayOfArrays, CRSMatrix and C arrays (C78): the theorems and their non-vacuity examples. *)
From Coq Require Import List Arith ZArith NArith Ascii String Lia Bool.
From Verif Require Import Base BaseProofs Mem BufferManip Indexing IndexingSpec Array AoA AoASpec Sorted AoS AoSSpec Sparsity SparsitySpec CRS CRSSpec SortedArray
  SortedSpec SortedArraySpec TextSpec Text Print PrintSpec PropAoA PropCRS PropText.
From Verif Require AoALayout AoAProofs AoAProofs2 AoAProofs4 SetsProofs2 SortedProofs SortedProofs2 SortedArrayProofs CRSProofs2 CRSProofs4
  ArrayProofs2 TextTop TextComplete CopyMoveProofs PrintProofs PrintProofs2.
Import ListNotations.
Local Open Scope string_scope.
Local Open Scope list_scope.
Local Open Scope nat_scope.
Set Implicit Arguments.

Definition injective {V} (print : V -> text) : Prop := forall v w, print v = print w -> v = w.
(** Rows as lists in the order of their columns. *)
Definition listed {W} (ls : list (list (Z * W))) (M : list (row_map W)) : Prop :=
  Forall2 (fun l S => increasing Z.ltb (map fst l) /\ forall e, In e l <-> S e) ls M.

Section Help.
Lemma map_inj {A B} (f : A -> B) : (forall x y, f x = f y -> x = y) -> forall l l', map f l = map f l' -> l = l'.
Proof. intros H. induction l as [|x l IH]; intros [|y l'] E; try discriminate; auto. cbn in E. injection E as E1 E. f_equal; auto. Qed.
Lemma run_sa V (lt eqb : V -> V -> bool) dflt chk triv : total_order lt eqb -> forall h, Forall (allowed lt) h ->
  exists a rs l, srun chk triv BMalloc lt eqb dflt h (new_s V BMalloc) = Ok (a, rs) /\ is_set lt l (set_of h) /\ SortedArrayProofs.sa_ok triv lt a l.
Proof.
  intros T h F. destruct (@SortedArrayProofs.srun_ok V chk triv lt eqb dflt T h (new_s V BMalloc) [] (SortedArrayProofs.new_s_ok triv lt) F)
    as ([a rs] & E & l & H & Hl & _). cbn [fst snd] in *. exists a, rs, l. split; [exact E|]. split; [|exact H].
  split; [apply SortedProofs.increasing_strong; apply H|exact Hl].
Qed.
Lemma run_crs W add zero chk tw cmax nr nc cap (h : list (ccall W)) M nc' p : (Z.of_nat nc - 1 <= cmax)%Z ->
  cvalid add zero tw cmax h (repeat none nr, nc) -> mat_run add zero cmax h (repeat none nr, nc) = Some (M, nc') ->
  cdriven add zero chk tw cmax nr nc cap h = Ok p ->
  exists L, @AoAProofs.aok (Z * W) Z W fst snd true tw true (rows p) L /\ listed (map fst L) M.
Proof.
  intros C V H E. pose proof (@cdriven_rep W add zero chk tw cmax nr nc cap h C V) as D. rewrite H in D.
  destruct D as [(p0 & E0 & R)|[_ K]]; [|congruence]. rewrite E in E0. injection E0 as <-. destruct R as ((L & A & F) & _). cbn [fst] in F.
  exists L. split; [exact A|]. clear -F. unfold listed. induction F as [|x S L M [I Rs] F IH]; cbn; constructor; auto. split; auto.
  apply (SortedProofs.increasing_strong Z.ltb). apply (SortedProofs2.map_key_incr Z.ltb fst). exact I.
Qed.
Lemma listed_same W (ls : list (list (Z * W))) : forall M ls' M', listed ls M -> listed ls' M' ->
  Forall2 (fun S S' : row_map W => forall e, S e <-> S' e) M M' -> ls = ls'.
Proof.
  induction ls as [|l ls IH]; intros M ls' M' H H' F; inversion H as [|? S ? M0 [I Rs] H1]; subst; inversion F as [|? S' ? M0' Q F1]; subst;
    inversion H' as [|l' ? ls0 ? [I' Rs'] H1']; subst; auto.
  f_equal; [|eapply IH; eauto].
  apply (@PrintProofs2.strong_unique (Z * W) (fun x y => (fst x <? fst y)%Z = true)).
  - intros x K. apply Z.ltb_lt in K. lia.
  - intros x y z K K'. apply Z.ltb_lt in K, K'. apply Z.ltb_lt. lia.
  - clear -I. apply (SortedProofs.increasing_strong Z.ltb) in I. induction l as [|e l IH]; constructor; inversion I as [|? ? Il Fe]; subst; auto.
    rewrite Forall_forall in *. intros y Hy. apply Fe. apply in_map. exact Hy.
  - clear -I'. apply (SortedProofs.increasing_strong Z.ltb) in I'. induction l' as [|e l IH]; constructor; inversion I' as [|? ? Il Fe]; subst; auto.
    rewrite Forall_forall in *. intros y Hy. apply Fe. apply in_map. exact Hy.
  - intros e. rewrite Rs, Rs'. apply Q.
Qed.
End Help.

(** ** SortedArray *)
(** After any history the text lists the elements of the set in increasing order. *)
Theorem C78_sorted : forall V (lt eqb : V -> V -> bool) (dflt : V) print chk triv, total_order lt eqb ->
  forall h, Forall (allowed lt) h ->
  exists a rs l, srun chk triv BMalloc lt eqb dflt h (new_s V BMalloc) = Ok (a, rs) /\ is_set lt l (set_of h) /\
    show_sorted print chk a = Ok (set_text (map print l)).
Proof.
  intros V lt eqb dflt print chk triv T h F. destruct (@run_sa V lt eqb dflt chk triv T h F) as (a & rs & l & E & S & A).
  exists a, rs, l. split; [exact E|]. split; [exact S|]. exact (PrintProofs2.sorted_text print chk A).
Qed.
Print Assumptions C78_sorted.

(** Values printed as different tokens: two histories give the same text exactly when they give the same set. *)
Theorem C78_sorted_same : forall V (lt eqb : V -> V -> bool) (dflt : V) print chk triv chk' triv', total_order lt eqb -> injective print ->
  forall h h', Forall (allowed lt) h -> Forall (allowed lt) h' ->
  (forall v, set_of h v \/ set_of h' v -> token (print v)) ->
  exists a rs a' rs' t t', srun chk triv BMalloc lt eqb dflt h (new_s V BMalloc) = Ok (a, rs) /\
    srun chk' triv' BMalloc lt eqb dflt h' (new_s V BMalloc) = Ok (a', rs') /\
    show_sorted print chk a = Ok t /\ show_sorted print chk' a' = Ok t' /\
    (t = t' <-> forall v, set_of h v <-> set_of h' v).
Proof.
  intros V lt eqb dflt print chk triv chk' triv' T J h h' F F' Tk.
  destruct (@run_sa V lt eqb dflt chk triv T h F) as (a & rs & l & E & [I S] & A). destruct (@run_sa V lt eqb dflt chk' triv' T h' F') as (a' & rs' & l' & E' & [I' S'] & A').
  exists a, rs, a', rs', (set_text (map print l)), (set_text (map print l')). split; [exact E|]. split; [exact E'|].
  split; [exact (PrintProofs2.sorted_text print chk A)|]. split; [exact (PrintProofs2.sorted_text print chk' A')|]. split.
  - intros Q. apply PrintProofs.set_cut in Q.
    + apply (map_inj print J) in Q. subst l'. intros v. rewrite <- S, <- S'. reflexivity.
    + apply Forall_map, Forall_forall. intros v Hv. apply Tk. left. apply S. exact Hv.
    + apply Forall_map, Forall_forall. intros v Hv. apply Tk. right. apply S'. exact Hv.
  - intros Q. do 2 f_equal. apply (CopyMoveProofs.incr_unique T); [apply SortedProofs.increasing_strong; exact I|apply SortedProofs.increasing_strong; exact I'|].
    intros v. rewrite S, S'. apply Q.
Qed.
Print Assumptions C78_sorted_same.

(** stringToArray reads the text into a one-dimensional array with the elements of the set in increasing order. *)
Theorem C78_sorted_reads_back : forall V (lt eqb : V -> V -> bool) (dflt : V) print conv chk triv, total_order lt eqb ->
  forall h dims b, Forall (allowed lt) h -> reached dflt chk triv [0] dims b ->
  (forall v, set_of h v -> token (print v) /\ conv (print v) = Some (v, [])) ->
  exists a rs l t b', srun chk triv BMalloc lt eqb dflt h (new_s V BMalloc) = Ok (a, rs) /\ is_set lt l (set_of h) /\
    show_sorted print chk a = Ok t /\ stringToArray conv chk triv BMalloc [0] dflt b t = Ok b' /\ a_dims b' = [List.length l] /\
    (forall i v, nth_error l i = Some v -> at_ chk [0] b' [Z.of_nat i] = Ok v).
Proof.
  intros V lt eqb dflt print conv chk triv T h dims b F R Tk. destruct (@run_sa V lt eqb dflt chk triv T h F) as (a & rs & l & E & [I S] & A).
  assert (P : is_permutation [0] (List.length [0])) by (apply Permutation.Permutation_refl).
  destruct (reached_ok _ _ _ _ _ _ P ltac:(cbn; lia) R) as (vs & B & D).
  destruct l as [|x l].
  - pose proof B as (Lb & _).
    destruct (@ArrayProofs2.nstep_ok V chk triv BMalloc [0] dflt P ltac:(cbn; lia) NClear b vs _ _ eq_refl B Logic.I eq_refl) as (b' & Eb & _ & Db & _).
    exists a, rs, [], (str "{}"), b'. split; [exact E|]. split; [split; auto|]. split; [exact (PrintProofs2.sorted_text print chk A)|]. split.
    + rewrite TextTop.accepts_empty; [exact Eb| |reflexivity]. apply TextComplete.delim_iff. reflexivity.
    + split; [|intros [|i] v N; discriminate N]. rewrite Db. destruct B as (L1 & _ & L2 & _). cbn in L1, L2. destruct (a_dims b) as [|d [|]]; try discriminate.
      assert (a_rix b = 0) as -> by lia. reflexivity.
  - set (f := fun idx : list Z => nth (Z.to_nat (hd 0%Z idx)) (x :: l) x). set (tok := fun idx => print (f idx)).
    assert (Sp : set_text (map print (x :: l)) = spaced [List.length (x :: l)] tok).
    { unfold spaced. cbn [nested]. change (set_text (map print (x :: l))) with (seq_text (map print (x :: l))). unfold seq_text. f_equal. f_equal. f_equal.
      unfold tok, f. cbn [hd]. generalize x at 3. generalize (x :: l). intros m. intros d.
      clear. induction m as [|y m IH]; [reflexivity|]. cbn [List.length seq map]. rewrite <- seq_shift, map_map. f_equal.
      rewrite IH. apply map_ext. intros k. rewrite !Nat2Z.id. reflexivity. }
    assert (Vi : forall idx, valid_index [List.length (x :: l)] idx -> In (f idx) (x :: l)).
    { intros idx H. inversion H as [|d i ? ? Hi Hr]; subst. unfold f. cbn [hd]. apply nth_In. cbn [List.length]. lia. }
    assert (Tok : TextComplete.tokens [List.length (x :: l)] tok).
    { intros idx H. apply Tk. apply S. apply Vi. exact H. }
    destruct (@TextTop.accepts V conv chk triv [0] dflt P ltac:(cbn; lia) b vs (spaced [List.length (x :: l)] tok) [List.length (x :: l)] tok f B eq_refl) as (b' & Eb & _ & Db & _ & Fb).
    + constructor; [cbn; lia|constructor].
    + exact Tok.
    + intros idx H. apply Tk. apply S. apply Vi. exact H.
    + apply TextTop.delimited_spaced. exact Tok.
    + apply TextTop.squeeze_spaced. exact Tok.
    + exists a, rs, (x :: l), (set_text (map print (x :: l))), b'. split; [exact E|]. split; [split; auto|].
      split; [exact (PrintProofs2.sorted_text print chk A)|]. rewrite Sp. split; [exact Eb|]. split; [exact Db|].
      intros i v N. assert (Hi : i < List.length (x :: l)) by (apply nth_error_Some; rewrite N; discriminate).
      rewrite Fb by (constructor; [lia|constructor]). unfold f. cbn [hd]. rewrite Nat2Z.id. rewrite (nth_error_nth _ _ _ N). reflexivity.
Qed.
Print Assumptions C78_sorted_reads_back.

(** ** ArrayOfArrays *)
(** [tv] = false, elements of class type: for the histories which end normally (C23). *)
Theorem C78_arrays : forall V (dflt : V) print chk tv n0 cap0 h M a, vec_run dflt h (repeat [] n0) = Some M ->
  driven chk tv dflt n0 cap0 h = Ok a -> show_aoa print chk a = Ok (arrays_text print_ix (map (map print) M)).
Proof.
  intros V dflt print chk tv n0 cap0 h M a H E. pose proof (driven_rep chk tv dflt n0 cap0 h) as D. rewrite H in D.
  destruct D as [(a' & E' & R)|[_ T]]; [|congruence]. rewrite E in E'. injection E' as <-. exact (PrintProofs2.arrays_shown print chk R).
Qed.
Print Assumptions C78_arrays.

(** The text determines the vector of vectors; spare capacity is not seen. *)
Theorem C78_arrays_same : forall V (dflt : V) print chk tv n0 cap0 h M a chk' tv' n0' cap0' h' M' a', injective print ->
  vec_run dflt h (repeat [] n0) = Some M -> driven chk tv dflt n0 cap0 h = Ok a ->
  vec_run dflt h' (repeat [] n0') = Some M' -> driven chk' tv' dflt n0' cap0' h' = Ok a' ->
  (forall r v, In r M \/ In r M' -> In v r -> token (print v)) ->
  exists t t', show_aoa print chk a = Ok t /\ show_aoa print chk' a' = Ok t' /\ (t = t' <-> M = M').
Proof.
  intros V dflt print chk tv n0 cap0 h M a chk' tv' n0' cap0' h' M' a' J H E H' E' Tk.
  exists (arrays_text print_ix (map (map print) M)), (arrays_text print_ix (map (map print) M')).
  split; [exact (C78_arrays dflt print chk tv n0 cap0 h H E)|]. split; [exact (C78_arrays dflt print chk' tv' n0' cap0' h' H' E')|]. split; [|congruence].
  intros X. apply (PrintProofs.arrays_cut PrintProofs2.num_token) in X.
  - apply map_inj in X; auto. apply map_inj. exact J.
  - apply Forall_map, Forall_forall. intros r Hr. apply Forall_map, Forall_forall. intros v Hv. eapply Tk; eauto.
  - apply Forall_map, Forall_forall. intros r Hr. apply Forall_map, Forall_forall. intros v Hv. eapply Tk; eauto.
Qed.
Print Assumptions C78_arrays_same.

(** ** CRSMatrix *)
(** [tw] = false, entries of class type: for the histories which end normally (C24). *)
Theorem C78_matrix : forall W add zero printc print chk tw cmax nr nc cap (h : list (ccall W)) M nc' p, (Z.of_nat nc - 1 <= cmax)%Z ->
  cvalid add zero tw cmax h (repeat none nr, nc) -> mat_run add zero cmax h (repeat none nr, nc) = Some (M, nc') ->
  cdriven add zero chk tw cmax nr nc cap h = Ok p ->
  exists ls, listed ls M /\
    show_crs chk printc print p = Ok (matrix_text print_ix (map (map (fun e => (printc (fst e), print (snd e)))) ls)).
Proof.
  intros W add zero printc print chk tw cmax nr nc cap h M nc' p C V H E. destruct (@run_crs W add zero chk tw cmax nr nc cap h M nc' p C V H E) as (L & A & F).
  exists (map fst L). split; [exact F|]. exact (PrintProofs2.matrix_shown chk printc print A).
Qed.
Print Assumptions C78_matrix.

(** The text determines the rows as maps from columns to entries; the number of columns is not printed. *)
Theorem C78_matrix_same : forall W add zero printc print chk tw cmax nr nc cap (h : list (ccall W)) M n p chk' tw' nr' nc' cap' h' M' n' p',
  injective printc -> injective print -> (Z.of_nat nc - 1 <= cmax)%Z -> (Z.of_nat nc' - 1 <= cmax)%Z ->
  cvalid add zero tw cmax h (repeat none nr, nc) -> mat_run add zero cmax h (repeat none nr, nc) = Some (M, n) ->
  cdriven add zero chk tw cmax nr nc cap h = Ok p ->
  cvalid add zero tw' cmax h' (repeat none nr', nc') -> mat_run add zero cmax h' (repeat none nr', nc') = Some (M', n') ->
  cdriven add zero chk' tw' cmax nr' nc' cap' h' = Ok p' ->
  (forall (S : row_map W) c w, In S M \/ In S M' -> S (c, w) -> token (printc c) /\ token (print w)) ->
  exists t t', show_crs chk printc print p = Ok t /\ show_crs chk' printc print p' = Ok t' /\
    (t = t' <-> Forall2 (fun S S' : row_map W => forall e, S e <-> S' e) M M').
Proof.
  intros W add zero printc print chk tw cmax nr nc cap h M n p chk' tw' nr' nc' cap' h' M' n' p' Jc J C C' V H E V' H' E' Tk.
  destruct (@C78_matrix W add zero printc print chk tw cmax nr nc cap h M n p C V H E) as (ls & F & Q). destruct (@C78_matrix W add zero printc print chk' tw' cmax nr' nc' cap' h' M' n' p' C' V' H' E') as (ls' & F' & Q').
  do 2 eexists. split; [exact Q|]. split; [exact Q'|].
  assert (G : forall (ls : list (list (Z * W))) (M : list (row_map W)), listed ls M -> (forall (S : row_map W) c w, In S M -> S (c, w) -> token (printc c) /\ token (print w)) ->
    Forall PrintProofs.tokens2 (map (map (fun e => (printc (fst e), print (snd e)))) ls)).
  { clear. intros ls M F Tk. induction F as [|l S ls M [_ Rs] F IH]; cbn [map]; constructor.
    - split; rewrite map_map; apply Forall_map, Forall_forall; intros [c w] He; cbn [fst snd]; apply (Tk S c w); try (left; reflexivity); apply Rs; exact He.
    - apply IH. intros S' c w I. apply Tk. right. exact I. }
  split; intros X.
  - apply (PrintProofs.matrix_cut (num := print_ix)) in X.
    + apply map_inj in X.
      * subst ls'. clear -F F'. revert M' F'. induction F as [|l S ls M [_ Rs] F IH]; intros M' F'; inversion F' as [|? S' ? M0' [_ Rs'] F1]; subst; constructor; auto.
        intros e. rewrite <- Rs, <- Rs'. reflexivity.
      * apply map_inj. intros [c w] [c' w'] K. cbn in K. injection K as K1 K2. apply Jc in K1. apply J in K2. congruence.
    + apply (G ls M F). intros S c w I. apply Tk. left. exact I.
    + apply (G ls' M' F'). intros S c w I. apply Tk. right. exact I.
  - rewrite (listed_same F F' X). reflexivity.
Qed.
Print Assumptions C78_matrix_same.

(** The same for the elements printed as integers, without conditions. *)
Theorem C78_integers : injective print_int /\ (forall z, token (print_int z)) /\ (forall i, print_ix i = print_int (Z.of_nat i)).
Proof.
  split; [|split; [apply TextTop.print_int_token|reflexivity]]. intros v w E.
  pose proof (TextTop.conv_print (lo := Z.min v w) (hi := Z.max v w) (z := v) ltac:(lia)) as A.
  pose proof (TextTop.conv_print (lo := Z.min v w) (hi := Z.max v w) (z := w) ltac:(lia)) as B. rewrite E, B in A. congruence.
Qed.
Print Assumptions C78_integers.

(** Strings with delimiters: different contents, same text. *)
Theorem C78_strings_refuted :
  (exists h h' M M' a a' t, vec_run [] h [] = Some M /\ vec_run [] h' [] = Some M' /\ M <> M' /\
    driven true false [] 0 0 h = Ok a /\ driven true false [] 0 0 h' = Ok a' /\
    show_aoa (fun v => v) true a = Ok t /\ show_aoa (fun v => v) true a' = Ok t).
Proof.
  exists [AAppendFrom [str "a"; str "b"]], [AAppendFrom [str "a, b"]]. do 5 eexists.
  split; [reflexivity|]. split; [reflexivity|]. split; [discriminate|]. repeat (split; [vm_compute; reflexivity|]). vm_compute. reflexivity.
Qed.
Print Assumptions C78_strings_refuted.

(** ** print of a CRSMatrix *)
(** It ends normally and prints sizes, offsets and non-zeros; the offsets are the sums of the capacities of the
    rows. *)
Theorem C78_print : forall W add zero printg chk tw cmax nr nc cap (h : list (ccall W)) M nc' p, (Z.of_nat nc - 1 <= cmax)%Z ->
  cvalid add zero tw cmax h (repeat none nr, nc) -> mat_run add zero cmax h (repeat none nr, nc) = Some (M, nc') ->
  cdriven add zero chk tw cmax nr nc cap h = Ok p ->
  exists ls caps, listed ls M /\ List.length caps = List.length ls /\ (forall i c, nth_error caps i = Some c -> nonZeroCapacity chk p i = Ok c) /\
    print_crs printg p = Ok (table print_ix (map (map (fun e => (print_int (fst e), printg (snd e)))) ls) caps).
Proof.
  intros W add zero printg chk tw cmax nr nc cap h M nc' p C V H E. destruct (@run_crs W add zero chk tw cmax nr nc cap h M nc' p C V H E) as (L & A & F).
  exists (map fst L), (map (@AoALayout.wid _) L). split; [exact F|]. split; [rewrite !map_length; reflexivity|]. split.
  - intros i c N. rewrite nth_error_map in N. destruct (nth_error L i) as [r|] eqn:Er; [|discriminate]. injection N as <-.
    destruct A as [Ia _]. exact (AoAProofs.capacityOf_at chk Ia Er).
  - exact (PrintProofs2.table_shown true printg A).
Qed.
Print Assumptions C78_print.

(** After compress the text depends on nothing but the rows. *)
Theorem C78_print_compressed : forall W add zero printg chk tw cmax nr nc cap (h : list (ccall W)) M nc' p, (Z.of_nat nc - 1 <= cmax)%Z ->
  cvalid add zero tw cmax h (repeat none nr, nc) -> mat_run add zero cmax h (repeat none nr, nc) = Some (M, nc') ->
  cdriven add zero chk tw cmax nr nc cap h = Ok p ->
  exists ls p', listed ls M /\ cstep1 add zero chk tw cmax CCompress p = Ok (p', 0) /\
    print_crs printg p' = Ok (table print_ix (map (map (fun e => (print_int (fst e), printg (snd e)))) ls) (map (@List.length _) ls)).
Proof.
  intros W add zero printg chk tw cmax nr nc cap h M nc' p C V H E. destruct (@run_crs W add zero chk tw cmax nr nc cap h M nc' p C V H E) as (L & A & F).
  destruct (AoAProofs2.compress_ok chk A) as (a' & Ea & A'). exists (map fst L), (mkSP a' (ncols p)). split; [exact F|]. split.
  - unfold cstep1, cstep, quiet, sp_compress, on_rows. rewrite Ea. reflexivity.
  - rewrite (PrintProofs2.table_shown (p := mkSP a' (ncols p)) true printg A'). unfold AoAProofs2.closed. rewrite !map_map. cbn [fst]. do 2 f_equal.
    apply map_ext. intros x. unfold AoALayout.wid. cbn. lia.
Qed.
Print Assumptions C78_print_compressed.

(** Without it matrices with the same rows can print differently: the documentation (output.hpp:204-205) wants the texts
    compared. *)
Theorem C78_print_refuted : exists (h : list (ccall Z)) M n p p' t t',
  cvalid Z.add 0%Z true 100 h (repeat none 1, 3) /\ mat_run Z.add 0%Z 100 h (repeat none 1, 3) = Some (M, n) /\
  cdriven Z.add 0%Z true true 100 1 3 1 h = Ok p /\ cdriven Z.add 0%Z true true 100 1 3 2 h = Ok p' /\
  print_crs print_int p = Ok t /\ print_crs print_int p' = Ok t' /\ t <> t'.
Proof.
  exists [CInsert 0 1%Z 5%Z]. do 6 eexists. split; [valid_matrix|]. split; [reflexivity|].
  repeat (split; [vm_compute; reflexivity|]). intros K. vm_compute in K. discriminate K.
Qed.
Print Assumptions C78_print_refuted.

(** ** C arrays *)
Theorem C78_c_arrays : (forall V (print : V -> text) l, show_c print l = Ok (seq_text (map print l))) /\
  (forall V (print : V -> text) l, show_c2 print l = Ok (seq_text (map (fun r => seq_text (map print r)) l))).
Proof.
  assert (G : forall V (print : V -> text) l, show_c print l = Ok (seq_text (map print l))).
  { intros V print l. unfold show_c. rewrite <- (map_length print l). apply PrintProofs.show_seq_text. intros i t N. rewrite nth_error_map in N.
    unfold aget. destruct (nth_error l i); [|discriminate]. injection N as <-. reflexivity. }
  split; [exact G|]. intros V print l. unfold show_c2. rewrite <- (map_length (fun r => seq_text (map print r)) l). apply PrintProofs.show_seq_text.
  intros i t N. rewrite nth_error_map in N. unfold aget. destruct (nth_error l i); [|discriminate]. injection N as <-. apply G.
Qed.
Print Assumptions C78_c_arrays.

Definition lines (l : list string) : text := List.concat (map (fun s => str s ++ nl) l).
Definition tab_ : string := String (ascii_of_nat 9) "".
Example C78_case :
  ('(a, _) <- srun true true BMalloc Z.ltb Z.eqb 0%Z [SInsert 12%Z; SInsert (-3)%Z; SInsert 7%Z] (new_s Z BMalloc) ;; show_sorted print_int true a)
    = Ok (str "{ -3, 7, 12 }") /\
  show_sorted print_int true (new_s Z BMalloc) = Ok (str "{}") /\
  (a <- driven true true 0%Z 2 1 [AEmplaceBack 0 10%Z; AEmplaceBack 0 11%Z; AAppendFrom [5]%Z] ;; show_aoa print_int true a)
    = Ok (lines ["{"; append "0" (append tab_ "{10, 11, }"); append "1" (append tab_ "{}"); append "2" (append tab_ "{5, }"); "}"]) /\
  (p <- cdriven Z.add 0%Z true true 100 2 3 1 [CInsert 0 2%Z 5%Z; CInsert 0 1%Z 6%Z] ;; show_crs true print_int print_int p)
    = Ok (lines ["{"; "row 0"; append tab_ "columns: { 1, 2 }"; append tab_ "values: { 6, 5 }";
                 "row 1"; append tab_ "columns: {  }"; append tab_ "values: {  }"; "}"]) /\
  (p <- cdriven Z.add 0%Z true true 100 2 3 1 [CInsert 0 2%Z 5%Z; CInsert 0 1%Z 6%Z] ;; print_crs print_int p)
    = Ok (lines ["numRows =    2 "; "ncols       = {    2,    0,  }"; "row_indexes = {    0,    3,    4,  }"; "row      col      value ";
                 "----  --------- --------- "; "   2"; "   0         1         6"; "   0         2         5"; "   0"; ""]) /\
  show_c2 print_int [[1; 2]; [3; 4]]%Z = Ok (str "{ { 1, 2 }, { 3, 4 } }").
Proof. repeat split; vm_compute; reflexivity. Qed.
