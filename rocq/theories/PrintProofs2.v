(** What the printing functions make of containers in valid states. *)
From Coq Require Import List Arith ZArith NArith Ascii String Lia Bool Sorted.
From Verif Require Import Base BaseProofs Mem BufferManip AoA Sorted AoS Sparsity CRS SortedArray SortedSpec TextSpec Text Print PrintSpec PrintProofs.
From Verif Require TextTop MemProofs BufferManipProofs AoALayout AoAProofs AoAProofs4 SetsProofs SetsProofs2 CRSProofs2 SortedArrayProofs.
Import ListNotations.
Local Open Scope string_scope.
Local Open Scope list_scope.
Local Open Scope nat_scope.
Set Implicit Arguments.
Arguments for_up_app : clear implicits.
Unset Strict Implicit.

Lemma strong_unique {A} (R : A -> A -> Prop) : (forall x, ~ R x x) -> (forall x y z, R x y -> R y z -> R x z) ->
  forall l l', StronglySorted R l -> StronglySorted R l' -> (forall x, In x l <-> In x l') -> l = l'.
Proof.
  intros Irr Tr. induction l as [|x l IH]; intros [|y l'] S S' H; auto.
  - destruct (proj2 (H y)). left; auto.
  - destruct (proj1 (H x)). left; auto.
  - inversion S as [|? ? Sl Fx]; inversion S' as [|? ? Sl' Fy]; subst. rewrite Forall_forall in Fx, Fy.
    assert (x = y).
    { destruct (proj1 (H x) (or_introl eq_refl)) as [E|I]; [auto|]. destruct (proj2 (H y) (or_introl eq_refl)) as [E|J]; [auto|].
      exfalso. exact (Irr x (Tr _ _ _ (Fx _ J) (Fy _ I))). }
    subst y. f_equal. apply IH; auto. intros z. split; intros I.
    + destruct (proj1 (H z) (or_intror I)) as [<-|J]; [exfalso; exact (Irr _ (Fx _ I))|exact J].
    + destruct (proj2 (H z) (or_intror I)) as [<-|J]; [exfalso; exact (Irr _ (Fy _ I))|exact J].
Qed.

Lemma num_token i : token (print_ix i).
Proof. apply TextTop.print_int_token. Qed.

(** * SortedArray *)
Lemma sorted_text V (print : V -> text) chk triv lt (a : sarray V) l : SortedArrayProofs.sa_ok triv lt a l ->
  show_sorted print chk a = Ok (set_text (map print l)).
Proof.
  intros (H & Hs & I). unfold show_sorted. rewrite Hs. destruct l as [|x l]; [reflexivity|].
  cbn [List.length Nat.eqb]. change (S (List.length l)) with (List.length (x :: l)). rewrite <- (map_length print (x :: l)).
  rewrite show_seq_text; [reflexivity|].
  intros i t N. rewrite nth_error_map in N. destruct (nth_error (x :: l) i) as [v|] eqn:E; [|discriminate]. injection N as <-.
  assert (Hi : i < List.length (x :: l)) by (apply nth_error_Some; rewrite E; discriminate).
  unfold s_at. rewrite Hs.
  rewrite check_if_ok by (destruct (Z.ltb_spec (Z.of_nat i) 0), (Z.leb_spec (Z.of_nat (List.length (x :: l))) (Z.of_nat i)); auto; lia).
  unfold to_ix. destruct (Z.ltb_spec (Z.of_nat i) 0); [lia|]. cbn [bind]. rewrite Nat2Z.id.
  assert (Rd : rd (s_buf a) i = Ok v) by (eapply BufferManipProofs.holds_rd; eauto). rewrite Rd. reflexivity.
Qed.

(** * ArrayOfArrays *)
Lemma arrays_shown V (print : V -> text) chk tv (a : aoa V unit) M K :
  AoAProofs4.arep tv true (fun _ : V => tt) a M K -> show_aoa print chk a = Ok (arrays_text print_ix (map (map print) M)).
Proof.
  intros R. unfold show_aoa. rewrite (AoAProofs4.rep_num R).
  rewrite (for_up_app _ (fun i => array_line print_ix i (map print (nth i M [])))).
  - cbn [bind]. unfold arrays_text. rewrite <- !app_assoc. do 4 f_equal.
    rewrite <- (map_length (map print) M). f_equal. apply numbered_ok. intros k x N. rewrite nth_error_map in N.
    destruct (nth_error M k) as [r|] eqn:E; [|discriminate]. injection N as <-. rewrite (nth_error_nth _ _ _ E). reflexivity.
  - intros i out Hi. destruct (nth_error M i) as [r|] eqn:E; [|apply nth_error_None in E; lia]. rewrite (nth_error_nth _ _ _ E).
    unfold show_row. rewrite (AoAProofs4.rep_size chk R E). cbn [bind].
    rewrite (for_up_app _ (fun j => match nth_error r j with Some v => print v ++ str ", " | None => [] end)).
    + cbn [bind]. unfold array_line. rewrite <- !app_assoc. do 5 f_equal. f_equal.
      rewrite map_map. apply concat_nth. intros k x N. rewrite N. reflexivity.
    + intros j o Hj. destruct (nth_error r j) as [v|] eqn:J; [|apply nth_error_None in J; lia].
      rewrite (AoAProofs4.rep_at chk R E J). reflexivity.
Qed.

(** * CRSMatrix *)
Section Matrix.
Variable W : Type.
Variables chk tw : bool.
Variable printc : Z -> text.
Variable print : W -> text.
Variable printg : W -> text.
Notation aok := (@AoAProofs.aok (Z * W) Z W fst snd true tw true).
Notation matrix := (pattern W).

Lemma crs_column (p : matrix) L i r k j c w : aok (rows p) L -> nth_error L i = Some (r, k) -> nth_error r j = Some (c, w) ->
  numNonZeros chk p i = Ok (List.length r) /\ column chk p i j = Ok c /\ entry chk p i j = Ok w /\
  exists o, offset (rows p) i = Ok o /\ rd (vals (rows p)) (o + j) = Ok c /\ rd (ents (rows p)) (o + j) = Ok w.
Proof.
  intros H N J. apply nth_error_split in N. destruct N as (A & B & -> & <-). pose proof H as [Ia [Lv Le]].
  assert (Lt : j < List.length r) by (apply nth_error_Some; rewrite J; discriminate).
  assert (Ov : getSetValues chk (rows p) (List.length A) = Ok (List.length (AoALayout.flat (@fst Z W) A))) by exact (SetsProofs.row_values fst chk Ia).
  assert (Of : offset (rows p) (List.length A) = Ok (List.length (AoALayout.flat (@fst Z W) A))).
  { unfold getSetValues in Ov. rewrite (SetsProofs.row_check chk Ia) in Ov. exact Ov. }
  assert (Rv : rd (vals (rows p)) (List.length (AoALayout.flat (@fst Z W) A) + j) = Ok c).
  { destruct (SetsProofs.lay_row Lv) as [q Mm]. eapply MemProofs.rd_nth; [exact Mm|]. rewrite nth_error_app2 by lia. rewrite Nat.add_comm, Nat.add_sub.
    rewrite nth_error_app1 by (rewrite !map_length; lia). rewrite !nth_error_map, J. reflexivity. }
  assert (Re : rd (ents (rows p)) (List.length (AoALayout.flat (@fst Z W) A) + j) = Ok w).
  { destruct (SetsProofs.lay_row (Le eq_refl)) as [q Mm].
    replace (List.length (AoALayout.flat (@fst Z W) A)) with (List.length (AoALayout.flat (@snd Z W) A)) by (rewrite !AoALayout.flat_length; reflexivity).
    eapply MemProofs.rd_nth; [exact Mm|]. rewrite nth_error_app2 by lia. rewrite Nat.add_comm, Nat.add_sub.
    rewrite nth_error_app1 by (rewrite !map_length; lia). rewrite !nth_error_map, J. reflexivity. }
  split; [exact (SetsProofs.row_size chk Ia)|]. split; [|split].
  - unfold column, aoa_at, slot, check_array2. pose proof (SetsProofs.row_check chk Ia) as Ck. unfold check_array in Ck.
    assert (Ch : (if chk then _ <- error_if (numArrays (rows p) <=? List.length A) ;; s <- size_ (rows p) (List.length A) ;; error_if (s <=? j) else Ok tt) = Ok tt).
    { destruct chk; auto. unfold check_if in Ck. cbn [andb] in Ck. unfold error_if at 1. rewrite Ck. cbn [bind]. rewrite (SetsProofs.row_size_ Ia). cbn [bind].
      apply error_if_ok. apply Nat.leb_gt. exact Lt. }
    rewrite Ch. cbn [bind]. rewrite Of. cbn [bind]. exact Rv.
  - unfold entry. rewrite (CRSProofs2.row_entries chk Ia). cbn [bind]. rewrite (SetsProofs.row_size_ Ia). cbn [bind].
    rewrite check_if_ok by (apply Nat.leb_gt; exact Lt). cbn [bind]. exact Re.
  - eauto.
Qed.

Definition both (f : W -> text) (e : Z * W) : text * text := (printc (fst e), f (snd e)).
Lemma matrix_shown (p : matrix) L : aok (rows p) L ->
  show_crs chk printc print p = Ok (matrix_text print_ix (map (map (both print)) (map fst L))).
Proof.
  intros H. pose proof H as [Ia _]. unfold show_crs. rewrite (proj1 Ia).
  rewrite (for_up_app _ (fun i => match nth_error L i with Some x => row_lines print_ix i (map (both print) (fst x)) | None => [] end)).
  - cbn [bind]. unfold matrix_text. rewrite <- !app_assoc. do 4 f_equal.
    rewrite map_map. rewrite <- (map_length (fun x => map (both print) (fst x)) L). f_equal. apply numbered_ok.
    intros k x N. rewrite nth_error_map in N. destruct (nth_error L k) as [r|]; [|discriminate]. injection N as <-. reflexivity.
  - intros i out Hi. destruct (nth_error L i) as [[r k]|] eqn:E; [|apply nth_error_None in E; lia]. cbn [fst].
    unfold show_nonzeros. unfold numNonZeros. rewrite (AoAProofs.sizeOf_at chk Ia E). cbn [bind fst].
    rewrite <- (map_length (fun e => printc (fst e)) r) at 1. rewrite show_seq_text.
    + cbn [bind]. rewrite <- (map_length (fun e => print (snd e)) r). rewrite show_seq_text.
      * cbn [bind]. unfold row_lines. rewrite !map_map. reflexivity.
      * intros j t N. rewrite nth_error_map in N. destruct (nth_error r j) as [[c w]|] eqn:J; [|discriminate]. injection N as <-.
        destruct (@crs_column p L i r k j c w H E J) as (_ & _ & -> & _). reflexivity.
    + intros j t N. rewrite nth_error_map in N. destruct (nth_error r j) as [[c w]|] eqn:J; [|discriminate]. injection N as <-.
      destruct (@crs_column p L i r k j c w H E J) as (_ & -> & _). reflexivity.
Qed.

Lemma sums_offsets (L : list (list (Z * W) * nat)) : forall o, sums o (map (@AoALayout.wid _) L) = AoALayout.offsets o L.
Proof. induction L as [|r L IH]; intros o; cbn; auto. f_equal. apply IH. Qed.

Lemma print_list_text at_ l out : (forall i k, nth_error l i = Some k -> at_ i = Ok k) ->
  print_list at_ (List.length l) out = Ok (out ++ List.concat (map (fun k => right 4 (print_ix k) ++ str ", ") l) ++ str " }" ++ nl).
Proof.
  intros H. unfold print_list.
  rewrite (for_up_app _ (fun i => match nth_error l i with Some k => right 4 (print_ix k) ++ str ", " | None => [] end)).
  - cbn [bind]. rewrite <- app_assoc. do 3 f_equal. apply concat_nth. intros k x N. rewrite N. reflexivity.
  - intros i o Hi. destruct (nth_error l i) as [k|] eqn:N; [|apply nth_error_None in N; lia]. rewrite (H _ _ N). reflexivity.
Qed.

Definition cells (e : Z * W) : text * text := (print_int (fst e), printg (snd e)).
Lemma table_shown (p : matrix) L : aok (rows p) L ->
  print_crs printg p = Ok (table print_ix (map (map cells) (map fst L)) (map (@AoALayout.wid _) L)).
Proof.
  intros H. pose proof H as [Ia _]. unfold print_crs. rewrite (proj1 Ia).
  rewrite <- (map_length (fun x => List.length (fst x)) L) at 1. rewrite print_list_text.
  2:{ intros i k N. rewrite nth_error_map in N. destruct (nth_error L i) as [r|] eqn:E; [|discriminate]. injection N as <-. exact (AoAProofs.size_at Ia E). }
  cbn [bind]. rewrite <- (AoALayout.offsets_length L 0). rewrite print_list_text.
  2:{ intros i k N. assert (Hi : i <= List.length L).
      { assert (i < List.length (AoALayout.offsets 0 L)) by (apply nth_error_Some; rewrite N; discriminate). rewrite AoALayout.offsets_length in *. lia. }
      rewrite (AoAProofs.offset_at Ia Hi). rewrite (AoALayout.offsets_nth Hi) in N. injection N as <-. reflexivity. }
  cbn [bind].
  rewrite (for_up_app _ (fun i => match nth_error L i with Some x => table_row print_ix i (map cells (fst x)) | None => [] end)).
  - cbn [bind]. unfold table, list_line. rewrite sums_offsets. rewrite !map_map, !map_length. f_equal. rewrite <- !app_assoc.
    do 4 f_equal.
    change (lit "ncols       = { ") with (str "ncols      " ++ str " = { "). change (lit "row_indexes = { ") with (str "row_indexes" ++ str " = { ").
    rewrite <- !app_assoc. do 2 f_equal.
    f_equal; [f_equal; apply map_ext; intros x; rewrite map_length; reflexivity|]. do 12 f_equal.
    rewrite <- (map_length (fun x => map cells (fst x)) L). f_equal. apply numbered_ok.
    intros k x N. rewrite nth_error_map in N. destruct (nth_error L k) as [r|]; [|discriminate]. injection N as <-. reflexivity.
  - intros i out Hi. destruct (nth_error L i) as [[r k]|] eqn:E; [|apply nth_error_None in E; lia]. cbn [fst].
    unfold print_nonzeros. rewrite (AoAProofs.size_at Ia E). cbn [bind fst].
    rewrite (for_up_app _ (fun j => match nth_error r j with
      Some e => right 4 (print_ix i) ++ str " " ++ right 9 (print_int (fst e)) ++ str " " ++ right 9 (printg (snd e)) ++ nl | None => [] end)).
    + unfold table_row. rewrite map_length. rewrite <- !app_assoc. do 4 f_equal. rewrite map_map. apply concat_nth. intros j e N. rewrite N. reflexivity.
    + intros j o Hj. destruct (nth_error r j) as [[c w]|] eqn:J; [|apply nth_error_None in J; lia].
      destruct (@crs_column p L i r k j c w H E J) as (_ & _ & _ & q & -> & Rv & Re). cbn [bind]. rewrite Rv. cbn [bind]. rewrite Re. reflexivity.
Qed.
End Matrix.
