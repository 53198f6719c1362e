(** Properties of CRSMatrix when the arguments are columns and entries of the matrix itself (C79): the theorems and their non-vacuity
    examples. *)
From Coq Require Import List Arith ZArith Lia Bool Sorting.Sorted.
From Verif Require Import Base BaseProofs Mem BufferManip SortedSpec SortedArraySpec AoA AoASpec AoS AoSSpec Sparsity SparsitySpec CRS CRSSpec PropCRS CRSOwn.
From Verif Require SortedProofs SortedProofs2 SortedOwnProofs AoALayout AoAProofs SetsProofs SetsProofs2 SparsityProofs CRSProofs2 CRSOwnProofs CRSOwnProofs2.
Import ListNotations.
Set Implicit Arguments.
Unset Strict Implicit.

Section Words.
Variable W : Type.
Notation matrix := (pattern W).
Implicit Types p : matrix.
(** The non-zeros of a row in the order in which they are stored *)
Definition listing (l : list (Z * W)) (S : row_map W) : Prop := increasing Z.ltb (map fst l) /\ forall e, In e l <-> S e.
(** [ws] inserted; its columns which are new *)
Definition with_new (S : row_map W) (ws : list (Z * W)) : row_map W := fun e => S e \/ (In e ws /\ ~ has S (fst e)).
Definition new_columns (S : row_map W) (ws : list (Z * W)) (m : nat) : Prop := cardinal (fun c => In c (map fst ws) /\ ~ has S c) m.
(** [n] non-zeros from the [l]-th on *)
Definition part (lk : list (Z * W)) (l n : nat) : list (Z * W) := firstn n (skipn l lk).
(** [m] non-zeros fit into row [i]; or the row grows to twice its new size, at most the number of columns, in the same block *)
Definition has_room (chk : bool) p (i m : nat) : Prop := exists s c, numNonZeros chk p i = Ok s /\ nonZeroCapacity chk p i = Ok c /\ s + m <= c.
Definition same_block {V} (chk : bool) p (b : buf V) (i m : nat) : Prop :=
  exists s c o, numNonZeros chk p i = Ok s /\ nonZeroCapacity chk p i = Ok c /\ offset (rows p) (numArrays (rows p)) = Ok o /\
    o + (Nat.min (ncols p) (2 * (s + m)) - c) <= capacity b.
Definition keeps {V} (chk : bool) p (b : buf V) (i m : nat) : Prop := has_room chk p i m \/ same_block chk p b i m.
(** The entries of row [k] are where they were when [m] non-zeros are being inserted into row [i]. *)
Definition in_place (chk : bool) p (i k m : nat) : Prop := m = 0 \/ k < i \/ (i < k /\ has_room chk p i m).
(** The call returns [r] and leaves a matrix which shows [st]; for T which is not trivially copyable it may fail because slots without a
    value are moved, C24. *)
Definition done (chk tw : bool) {R} (m : outcome (matrix * R)) (st : mat_state W) (r : R) : Prop :=
  (exists p', m = Ok (p', r) /\ cshows chk p' st) \/ (tw = false /\ m = Fault FMove).
Definition dangling (tw : bool) {R} (m : outcome R) : Prop := m = Fault FDangling \/ (tw = false /\ m = Fault FMove).
End Words.

Section Help.
Variable W : Type.
Variable chk tw : bool.
Notation P := (Z * W)%type.
Notation fv := (@fst Z W).
Notation fw := (@snd Z W).
Notation rows_t := (list (list P * nat)).
Notation mrep := (@CRSProofs2.mrep W tw).
Notation aok := (@AoAProofs.aok P Z W fv fw true tw true).
Notation pincr l := (StronglySorted (fun x y => (fst x <? fst y)%Z = true) l).
Notation absent := (SortedProofs2.absent Z.eqb fv).
Notation present := (SortedProofs2.present Z.eqb fv).
Notation pins := (SortedProofs2.pinsert Z.ltb Z.eqb fv).
Notation rowset := (@SetsProofs2.rowset P Z fv Z.ltb).
Notation moves p cap A es g B n := (CRSOwnProofs2.moves p cap A es g B n).
Implicit Types p : pattern W.
Implicit Types A B : rows_t.

Lemma listing_unique (l l' : list P) : pincr l -> pincr l' -> (forall e, In e l <-> In e l') -> l = l'.
Proof.
  revert l'; induction l as [|x t IH]; intros [|y t'] I I' H.
  - reflexivity.
  - exfalso. apply (proj2 (H y)). left. reflexivity.
  - exfalso. apply (proj1 (H x)). left. reflexivity.
  - inversion I as [|? ? It Fx]; inversion I' as [|? ? It' Fy]; subst. rewrite Forall_forall in Fx, Fy.
    assert (x = y).
    { destruct (proj1 (H x) (or_introl eq_refl)) as [E|Hx]; [auto|]. destruct (proj2 (H y) (or_introl eq_refl)) as [E|Hy]; [auto|].
      specialize (Fx _ Hy). specialize (Fy _ Hx). cbn in Fx, Fy. apply Z.ltb_lt in Fx. apply Z.ltb_lt in Fy. lia. }
    subst y. f_equal. apply IH; auto. intros e. split; intros He.
    + destruct (proj1 (H e) (or_intror He)) as [E|He']; [|exact He']. subst e. specialize (Fx _ He). cbn in Fx. rewrite Z.ltb_irrefl in Fx. discriminate.
    + destruct (proj2 (H e) (or_intror He)) as [E|He']; [|exact He']. subst e. specialize (Fy _ He). cbn in Fy. rewrite Z.ltb_irrefl in Fy. discriminate.
Qed.
(** Rows [i] and [k] in the layout *)
Lemma two_rows p M nc i k Si Sk lk : mrep p (M, nc) -> nth_error M i = Some Si -> nth_error M k = Some Sk -> listing lk Sk ->
  exists A es g B gk, aok (rows p) (A ++ (es, g) :: B) /\ length A = i /\ rowset (es, g) Si /\
    nth_error (A ++ (es, g) :: B) k = Some (lk, gk) /\ pincr lk /\
    (forall es' C S', aok C (A ++ es' :: B) -> rowset es' S' -> @SetsProofs2.rep P Z W fv fw true tw true Z.ltb C (put_at M i S')).
Proof.
  intros ((L & H & F) & E & G) Ni Nk [Ik Hk]. destruct (SetsProofs2.f2_at F Ni) as (A & es & g & B & EL & Li & R & Pt).
  destruct (SetsProofs2.f2_at F Nk) as (A' & r' & g' & B' & E' & Lk & [I' Rk] & _). cbn [fst] in I', Rk. subst L.
  apply CRSProofs2.keys_incr in Ik.
  assert (r' = lk) by (apply listing_unique; auto; intros e; rewrite Hk, Rk; reflexivity). subst r'.
  exists A, es, g, B, g'. split; [exact H|]. split; [exact Li|]. split; [exact R|]. split; [rewrite E', <- Lk; apply SetsProofs.row_nth|]. split; [exact Ik|].
  intros es' C S' HC R'. eexists. split; [exact HC|]. apply Pt. exact R'.
Qed.
Lemma absent_new es g (S : row_map W) ws m : rowset (es, g) S -> pincr ws -> new_columns S ws m -> absent es ws = m.
Proof.
  intros [I R] Iw C. cbn [fst] in *. rewrite <- CRSOwnProofs2.absent_keys. unfold SortedProofs2.absent. eapply SetsProofs2.card_len; [exact C| |].
  - apply NoDup_filter. exact (SetsProofs2.pincr_nodup_keys SparsityProofs.zorder Iw).
  - intros x. rewrite filter_In, negb_true_iff. unfold SortedProofs2.present.
    assert (Q : existsb (fun e => Z.eqb e x) (map fst es) = true <-> has S x).
    { rewrite existsb_exists. split.
      - intros (y & Hy & Ey). apply Z.eqb_eq in Ey. subst y. apply in_map_iff in Hy. destruct Hy as ([c w] & <- & Hw). exists w. apply R. exact Hw.
      - intros [w Hw]. exists x. split; [|apply Z.eqb_refl]. apply in_map_iff. exists (x, w). split; [reflexivity|]. apply R. exact Hw. }
    split; intros [Hv Hx]; split; auto.
    + rewrite <- Q. congruence.
    + destruct (existsb (fun e => Z.eqb e x) (map fst es)); auto. destruct Hx. apply Q. reflexivity.
Qed.
Lemma room_row p A es g B m : aok (rows p) (A ++ (es, g) :: B) -> has_room chk p (length A) m <-> m <= g.
Proof.
  intros [I _]. unfold has_room, numNonZeros, nonZeroCapacity. rewrite (SetsProofs.row_size chk I), (SetsProofs.row_capacity chk I). split.
  - intros (s & c & [= <-] & [= <-] & H). lia.
  - intros H. exists (length es), (length es + g). repeat split. lia.
Qed.
Lemma clamp_min p n : clamp p n = Nat.min (ncols p) n.
Proof. unfold clamp. destruct (Nat.ltb_spec (ncols p) n); lia. Qed.
Lemma block_row V p (b : buf V) A es g B m : aok (rows p) (A ++ (es, g) :: B) -> keeps chk p b (length A) m <-> moves p (length b) A es g B m = false.
Proof.
  intros H. unfold keeps. rewrite (room_row m H). destruct H as [I _]. pose proof I as (Na & _). unfold same_block, numNonZeros, nonZeroCapacity, CRSOwnProofs2.moves, capacity.
  rewrite (SetsProofs.row_size chk I), (SetsProofs.row_capacity chk I), Na, (AoAProofs.offset_at I), firstn_all, clamp_min by auto.
  destruct (Nat.ltb_spec (length es + g) (length es + m)); cbn [andb]; [|intuition lia].
  rewrite Nat.ltb_ge. split.
  - intros [Q|(s & c & o & [= <-] & [= <-] & [= <-] & Q)]; lia.
  - intros Q. right. eexists _, _, _. repeat split. exact Q.
Qed.
Lemma grown_room p es g m : m <= g -> CRSProofs2.grown p es g m = length es + g.
Proof. intros H. unfold CRSProofs2.grown. destruct (Nat.ltb_spec (length es + g) (length es + m)); [lia|reflexivity]. Qed.
Lemma place_row p A es g B k m : aok (rows p) (A ++ (es, g) :: B) -> in_place chk p (length A) k m ->
  CRSOwnProofs2.place A es g k m (CRSProofs2.grown p es g m).
Proof.
  intros H [Q|[Q|[Q R]]]; [left; exact Q|right; left; exact Q|]. right. right. split; [exact Q|]. apply (room_row m H) in R. apply grown_room. exact R.
Qed.
Lemma lift p M nc i Si A es g B C ws R (m : outcome (pattern W * R)) r : mrep p (M, nc) -> nth_error M i = Some Si -> rowset (es, g) Si ->
  (forall es' C S', aok C (A ++ es' :: B) -> rowset es' S' -> @SetsProofs2.rep P Z W fv fw true tw true Z.ltb C (put_at M i S')) ->
  pincr ws -> Forall (in_range nc) (map fst ws) ->
  AoALayout.okb tw m (fun r' => snd r' = r /\ ncols (fst r') = ncols p /\ aok (rows (fst r')) (A ++ (fold_right pins es ws, C) :: B)) ->
  done chk tw m (put_at M i (with_new Si ws), nc) r.
Proof.
  intros (Rp & En & G) Ni Ri Pt Iw Fw [([p' r'] & E & Er & Ec & H')|[Tf E]]; [left|right; auto]. cbn [fst snd] in *. subst r'. exists p'. split; [exact E|].
  apply mrep_shows with (tw := tw). split; [|split; [cbn [snd]; congruence|]].
  - cbn [fst]. exact (Pt _ _ _ H' (CRSProofs2.rowset_ins C Ri Iw)).
  - apply CRSProofs2.mranged_put; [exact G|]. apply CRSProofs2.inserted_range; [exact (CRSProofs2.mranged_at G Ni)|exact Fw].
Qed.
Lemma present_has es g (S : row_map W) c : rowset (es, g) S -> present es c = true <-> has S c.
Proof.
  intros [_ R]. cbn [fst] in R. unfold SortedProofs2.present. rewrite existsb_exists. split.
  - intros ([c' w] & Hy & Ey). apply Z.eqb_eq in Ey. cbn in Ey. subst c'. exists w. apply R. exact Hy.
  - intros [w Hw]. exists (c, w). split; [|apply Z.eqb_refl]. apply R. exact Hw.
Qed.
Lemma enough p M nc i Si es g ws : mrep p (M, nc) -> nth_error M i = Some Si -> rowset (es, g) Si -> pincr ws -> Forall (in_range nc) (map fst ws) ->
  length es + absent es ws <= CRSProofs2.grown p es g (absent es ws).
Proof. intros (Rp & En & G) Ni Ri Iw Fw. eapply CRSProofs2.grown_enough; [exact En|exact Ri|exact (CRSProofs2.mranged_at G Ni)|exact Iw|exact Fw]. Qed.
Lemma driven_mrep add zero cmax nr nc0 cap (h : list (ccall W)) st p : (Z.of_nat nc0 - 1 <= cmax)%Z -> cvalid add zero tw cmax h (repeat none nr, nc0) ->
  mat_run add zero cmax h (repeat none nr, nc0) = Some st -> cdriven add zero chk tw cmax nr nc0 cap h = Ok p -> mrep p st.
Proof.
  intros C V H E. pose proof (@cdriven_rep W add zero chk tw cmax nr nc0 cap h C V) as D. rewrite H in D.
  destruct D as [(p0 & E0 & R)|[_ E0]]; rewrite E in E0; [|discriminate]. injection E0 as <-. exact R.
Qed.
Lemma part_range lk l n Sk M nc k p : mrep p (M, nc) -> nth_error M k = Some Sk -> listing lk Sk -> Forall (in_range nc) (map fst (part lk l n)).
Proof.
  intros (_ & _ & G) Nk [_ Hk]. apply Forall_forall. intros c Hc. apply in_map_iff in Hc. destruct Hc as ([c' w] & <- & Hw).
  apply (CRSProofs2.mranged_at G Nk). exists w. apply Hk. unfold part in Hw. rewrite <- (firstn_skipn l lk). apply in_app_iff. right.
  rewrite <- (firstn_skipn n (skipn l lk)). apply in_app_iff. left. exact Hw.
Qed.
End Help.

(** C79, insertNonZero( i, col, m.getEntries( k )[ l ] ): the entry inserted is the one named, if the row grows within the block of the entries
    and the entry is before the place where the new one is put, or behind the row while this does not grow. *)
Theorem C79_insert : forall W add zero chk tw cmax nr nc0 cap (h : list (ccall W)) M nc p i k Si Sk lk l ck w col, (Z.of_nat nc0 - 1 <= cmax)%Z ->
  cvalid add zero tw cmax h (repeat none nr, nc0) -> mat_run add zero cmax h (repeat none nr, nc0) = Some (M, nc) -> cdriven add zero chk tw cmax nr nc0 cap h = Ok p ->
  nth_error M i = Some Si -> nth_error M k = Some Sk -> listing lk Sk -> nth_error lk l = Some (ck, w) -> in_range nc col ->
  has Si col \/ (keeps chk p (ents (rows p)) i 1 /\ (k < i \/ (i < k /\ has_room chk p i 1) \/ (k = i /\ (ck < col)%Z))) ->
  exists r, done chk tw (crs_insertNonZeroOwn chk tw BMalloc p i col k l) (put_at M i (with_new Si [(col, w)]), nc) r /\ (r = true <-> ~ has Si col).
Proof.
  intros W add zero chk tw cmax nr nc0 cap h M nc p i k Si Sk lk l ck w col C V Hr E Ni Nk Hl Nl Hc Pl.
  pose proof (driven_mrep C V Hr E) as Mr. destruct (two_rows Mr Ni Nk Hl) as (A & es & g & B & gk & H & <- & Ri & Nr & Ik & Pt).
  assert (Iw : StronglySorted (fun x y : Z * W => (fst x <? fst y)%Z = true) [(col, w)]) by repeat constructor.
  assert (Fw : Forall (in_range nc) (map fst [(col, w)])) by (cbn; auto).
  pose proof (enough Mr Ni Ri Iw Fw) as G. pose proof (CRSProofs2.absent1 es (col, w)) as A1. cbn [fst] in A1.
  pose proof (present_has col Ri) as Pr.
  exists (negb (SortedProofs2.present Z.eqb fst es col)). split; [|rewrite negb_true_iff, <- Pr; destruct (SortedProofs2.present Z.eqb fst es col); intuition congruence].
  eapply lift; [exact Mr|exact Ni|exact Ri|exact Pt|exact Iw|exact Fw|]. eapply CRSOwnProofs2.insertOwn_row; [exact H|apply Ri|exact Nr|exact G| | |].
  - apply nth_error_Some. congruence.
  - destruct Pl as [Pl|[Pl _]].
    + rewrite A1, (proj2 Pr Pl). unfold CRSOwnProofs2.moves. destruct (Nat.ltb_spec (length es + g) (length es + 0)); [lia|reflexivity].
    + apply (block_row chk _ _ H) in Pl. rewrite A1. destruct (SortedProofs2.present Z.eqb fst es col); [|exact Pl].
      unfold CRSOwnProofs2.moves. destruct (Nat.ltb_spec (length es + g) (length es + 0)); [lia|reflexivity].
  - eapply CRSOwnProofs2.insert_same; [exact H|apply Ri|exact Nr|exact Ik|exact Nl|]. unfold CRSOwnProofs2.may_insert. destruct (SortedProofs2.present Z.eqb fst es col) eqn:Ep; [left; reflexivity|right].
    destruct Pl as [Pl|[_ Pl]]; [apply Pr in Pl; discriminate|]. destruct Pl as [Pl|[[Pl Ro]|Pl]]; [left; left; exact Pl|left; right|right; exact Pl].
    split; [exact Pl|]. rewrite A1. apply grown_room. apply (room_row chk _ H) in Ro. exact Ro.
Qed.
Print Assumptions C79_insert.

(** insertNonZeros( i, cols, &m.getEntries( k )[ l ], n ) *)
Theorem C79_insert_range : forall W add zero chk tw cmax nr nc0 cap (h : list (ccall W)) M nc p i k Si Sk lk l ws m, (Z.of_nat nc0 - 1 <= cmax)%Z ->
  cvalid add zero tw cmax h (repeat none nr, nc0) -> mat_run add zero cmax h (repeat none nr, nc0) = Some (M, nc) -> cdriven add zero chk tw cmax nr nc0 cap h = Ok p ->
  nth_error M i = Some Si -> nth_error M k = Some Sk -> listing lk Sk ->
  increasing Z.ltb (map fst ws) -> Forall (in_range nc) (map fst ws) -> map snd ws = map snd (part lk l (length ws)) -> new_columns Si ws m ->
  keeps chk p (ents (rows p)) i m -> in_place chk p i k m ->
  done chk tw (crs_insertNonZerosOwn chk tw BMalloc p i (map fst ws) k l) (put_at M i (with_new Si ws), nc) m.
Proof.
  intros W add zero chk tw cmax nr nc0 cap h M nc p i k Si Sk lk l ws m C V Hr E Ni Nk Hl Iw Fw Ew Nw Ke Pl.
  pose proof (driven_mrep C V Hr E) as Mr. destruct (two_rows Mr Ni Nk Hl) as (A & es & g & B & gk & H & <- & Ri & Nr & Ik & Pt).
  apply CRSProofs2.keys_incr in Iw. pose proof (enough Mr Ni Ri Iw Fw) as G. rewrite <- (absent_new Ri Iw Nw) in *.
  eapply lift; [exact Mr|exact Ni|exact Ri|exact Pt|exact Iw|exact Fw|].
  eapply CRSOwnProofs2.insertsOwn_row; [exact H|apply Ri|exact Nr|exact Iw|exact G|exact Ew| |].
  - apply (block_row chk _ _ H). exact Ke.
  - exact (place_row H Pl).
Qed.
Print Assumptions C79_insert_range.

(** insertNonZeros( i, &m.getColumns( k )[ l ], &m.getEntries( k )[ l ], n ) *)
Theorem C79_insert_row : forall W add zero chk tw cmax nr nc0 cap (h : list (ccall W)) M nc p i k Si Sk lk l n m, (Z.of_nat nc0 - 1 <= cmax)%Z ->
  cvalid add zero tw cmax h (repeat none nr, nc0) -> mat_run add zero cmax h (repeat none nr, nc0) = Some (M, nc) -> cdriven add zero chk tw cmax nr nc0 cap h = Ok p ->
  nth_error M i = Some Si -> nth_error M k = Some Sk -> listing lk Sk -> l + n <= length lk -> new_columns Si (part lk l n) m ->
  keeps chk p (ents (rows p)) i m -> keeps chk p (vals (rows p)) i m -> in_place chk p i k m ->
  done chk tw (crs_insertRowOwn chk tw BMalloc p i k l n) (put_at M i (with_new Si (part lk l n)), nc) m.
Proof.
  intros W add zero chk tw cmax nr nc0 cap h M nc p i k Si Sk lk l n m C V Hr E Ni Nk Hl Ln Nw Ke Kv Pl.
  pose proof (driven_mrep C V Hr E) as Mr. pose proof (part_range l n Mr Nk Hl) as Fw.
  destruct (two_rows Mr Ni Nk Hl) as (A & es & g & B & gk & H & <- & Ri & Nr & Ik & Pt).
  pose proof (CRSOwnProofs2.sub_incr Ln Ik) as Iw. pose proof (enough Mr Ni Ri Iw Fw) as G. unfold part in *. rewrite <- (absent_new Ri Iw Nw) in *.
  apply (block_row chk _ _ H) in Ke. apply (block_row chk _ _ H) in Kv. pose proof (place_row H Pl) as Pl'.
  rewrite (CRSOwnProofs2.rowOwn_row chk H (proj1 Ri) Nr Ik Ln G Ke Kv Pl').
  eapply lift; [exact Mr|exact Ni|exact Ri|exact Pt|exact Iw|exact Fw|].
  eapply CRSOwnProofs2.insertsOwn_row; [exact H|apply Ri|exact Nr|exact Iw|exact G|reflexivity|exact Ke|exact Pl'].
Qed.
Print Assumptions C79_insert_row.

(** removeNonZeros( i, &m.getColumns( k )[ l ], n ) removes the columns named, whatever row they are in. *)
Theorem C79_remove_range : forall W add zero chk tw cmax nr nc0 cap (h : list (ccall W)) M nc p i k Si Sk lk l n, (Z.of_nat nc0 - 1 <= cmax)%Z ->
  cvalid add zero tw cmax h (repeat none nr, nc0) -> mat_run add zero cmax h (repeat none nr, nc0) = Some (M, nc) -> cdriven add zero chk tw cmax nr nc0 cap h = Ok p ->
  nth_error M i = Some Si -> nth_error M k = Some Sk -> listing lk Sk -> l + n <= length lk ->
  let S' := fun e => Si e /\ ~ In (fst e) (map fst (part lk l n)) in
  exists p' r, crs_removeNonZerosOwn chk tw p i k l n = Ok (p', r) /\ cshows chk p' (put_at M i S', nc) /\
    (forall m m', cardinal Si m -> cardinal S' m' -> m = m' + r).
Proof.
  intros W add zero chk tw cmax nr nc0 cap h M nc p i k Si Sk lk l n C V Hr E Ni Nk Hl Ln S'.
  pose proof (driven_mrep C V Hr E) as Mr. destruct (two_rows Mr Ni Nk Hl) as (A & es & g & B & gk & H & <- & Ri & Nr & Ik & Pt).
  rewrite (CRSOwnProofs2.removesOwn_row chk H (proj1 Ri) Nr Ik Ln).
  assert (Iv : increasing Z.ltb (map fst (part lk l n))).
  { apply (SortedProofs.increasing_strong Z.ltb). apply (SortedProofs2.map_key_incr Z.ltb fst). exact (CRSOwnProofs2.sub_incr Ln Ik). }
  destruct (@CRSProofs2.removes_rep W chk tw p M nc (length A) Si (map fst (part lk l n)) Mr Ni Iv) as ([p' r] & Er & Mr' & Mp). cbn [fst snd] in *.
  exists p', r. split; [exact Er|]. split; [exact (mrep_shows chk Mr')|]. intros m m' C1 C2. exact (Mp _ _ C2 C1).
Qed.
Print Assumptions C79_remove_range.

(** If the block of the entries, or that of the columns they come with, is replaced, the argument dangles. *)
Theorem C79_moved : forall W add zero chk tw cmax nr nc0 cap (h : list (ccall W)) M nc p i k Si Sk lk, (Z.of_nat nc0 - 1 <= cmax)%Z ->
  cvalid add zero tw cmax h (repeat none nr, nc0) -> mat_run add zero cmax h (repeat none nr, nc0) = Some (M, nc) -> cdriven add zero chk tw cmax nr nc0 cap h = Ok p ->
  nth_error M i = Some Si -> nth_error M k = Some Sk -> listing lk Sk ->
  (forall l col, l < length lk -> in_range nc col -> ~ has Si col -> ~ keeps chk p (ents (rows p)) i 1 ->
    dangling tw (crs_insertNonZeroOwn chk tw BMalloc p i col k l)) /\
  (forall l ws m, increasing Z.ltb (map fst ws) -> Forall (in_range nc) (map fst ws) -> new_columns Si ws m -> ~ keeps chk p (ents (rows p)) i m ->
    dangling tw (crs_insertNonZerosOwn chk tw BMalloc p i (map fst ws) k l)) /\
  (forall l n m, l + n <= length lk -> new_columns Si (part lk l n) m -> ~ keeps chk p (ents (rows p)) i m \/ ~ keeps chk p (vals (rows p)) i m ->
    dangling tw (crs_insertRowOwn chk tw BMalloc p i k l n)).
Proof.
  intros W add zero chk tw cmax nr nc0 cap h M nc p i k Si Sk lk C V Hr E Ni Nk Hl.
  pose proof (driven_mrep C V Hr E) as Mr. destruct (two_rows Mr Ni Nk Hl) as (A & es & g & B & gk & H & <- & Ri & Nr & Ik & Pt).
  assert (Mv : forall T (b : buf T) m, ~ keeps chk p b (length A) m -> CRSOwnProofs2.moves p (length b) A es g B m = true).
  { intros T b m K. apply not_false_is_true. intros F. apply K. apply (block_row chk _ _ H). exact F. }
  split; [|split].
  - intros l col Ll Hc Ab K. destruct (nth_error lk l) as [[ck w]|] eqn:Nl; [|apply nth_error_None in Nl; lia].
    assert (Iw : StronglySorted (fun x y : Z * W => (fst x <? fst y)%Z = true) [(col, w)]) by repeat constructor.
    assert (Fw : Forall (in_range nc) (map fst [(col, w)])) by (cbn; auto).
    pose proof (enough Mr Ni Ri Iw Fw) as G. pose proof (CRSProofs2.absent1 es (col, w)) as A1. cbn [fst] in A1. pose proof (present_has col Ri) as Pr.
    destruct (SortedProofs2.present Z.eqb fst es col); [destruct Ab; apply Pr; reflexivity|].
    eapply (@CRSOwnProofs2.insertOwn_lost W chk tw p A B es g k lk gk H (proj1 Ri) Nr col w l G Ll). rewrite A1. apply Mv. exact K.
  - intros l ws m Iw Fw Nw K. apply CRSProofs2.keys_incr in Iw. pose proof (enough Mr Ni Ri Iw Fw) as G. rewrite <- (absent_new Ri Iw Nw) in K.
    exact (@CRSOwnProofs2.insertsOwn_lost W chk tw p A B es g k lk gk H (proj1 Ri) Nr ws l Iw G (Mv _ _ _ K)).
  - intros l n m Ln Nw K. pose proof (part_range l n Mr Nk Hl) as Fw. pose proof (CRSOwnProofs2.sub_incr Ln Ik) as Iw. pose proof (enough Mr Ni Ri Iw Fw) as G.
    unfold part in *. rewrite <- (absent_new Ri Iw Nw) in K. apply (@CRSOwnProofs2.rowOwn_lost W chk tw p A B es g k lk gk H (proj1 Ri) Nr Ik l n Ln G).
    destruct K as [K|K]; [left|right]; apply Mv; exact K.
Qed.
Print Assumptions C79_moved.

(** An entry of the row itself behind the place of the new one: the new non-zero silently gets the value of the entry before the one named. *)
Theorem C79_shifted : forall W add zero chk tw cmax nr nc0 cap (h : list (ccall W)) M nc p i Si li l c w col, (Z.of_nat nc0 - 1 <= cmax)%Z ->
  cvalid add zero tw cmax h (repeat none nr, nc0) -> mat_run add zero cmax h (repeat none nr, nc0) = Some (M, nc) -> cdriven add zero chk tw cmax nr nc0 cap h = Ok p ->
  nth_error M i = Some Si -> listing li Si -> nth_error li l = Some (c, w) -> S l < length li -> in_range nc col -> ~ has Si col -> (col < c)%Z ->
  keeps chk p (ents (rows p)) i 1 ->
  done chk tw (crs_insertNonZeroOwn chk tw BMalloc p i col i (S l)) (put_at M i (with_new Si [(col, w)]), nc) true.
Proof.
  intros W add zero chk tw cmax nr nc0 cap h M nc p i Si li l c w col C V Hr E Ni Hl Nl Ls Hc Ab Lc Ke.
  pose proof (driven_mrep C V Hr E) as Mr. destruct (two_rows Mr Ni Ni Hl) as (A & es & g & B & gk & H & <- & Ri & Nr & Ik & Pt).
  assert (Iw : StronglySorted (fun x y : Z * W => (fst x <? fst y)%Z = true) [(col, w)]) by repeat constructor.
  assert (Fw : Forall (in_range nc) (map fst [(col, w)])) by (cbn; auto).
  pose proof (enough Mr Ni Ri Iw Fw) as G. pose proof (CRSProofs2.absent1 es (col, w)) as A1. cbn [fst] in A1. pose proof (present_has col Ri) as Pr.
  destruct (SortedProofs2.present Z.eqb fst es col) eqn:Ep; [destruct Ab; apply Pr; reflexivity|].
  replace true with (negb (SortedProofs2.present Z.eqb fst es col)) by (rewrite Ep; reflexivity).
  eapply lift; [exact Mr|exact Ni|exact Ri|exact Pt|exact Iw|exact Fw|].
  eapply CRSOwnProofs2.insertOwn_row; [exact H|apply Ri|exact Nr|exact G|exact Ls| |].
  - rewrite A1. apply (block_row chk _ _ H) in Ke. exact Ke.
  - eapply CRSOwnProofs2.insert_shifted; [exact H|apply Ri|exact Nr|exact Ik|reflexivity|exact Nl|exact Lc].
Qed.
Print Assumptions C79_shifted.

(** Through a view nothing grows, and only the row itself matters. *)
Theorem C79_view : forall W add zero chk tw cmax nr nc0 cap (h : list (ccall W)) M nc p i k Si Sk lk, (Z.of_nat nc0 - 1 <= cmax)%Z ->
  cvalid add zero tw cmax h (repeat none nr, nc0) -> mat_run add zero cmax h (repeat none nr, nc0) = Some (M, nc) -> cdriven add zero chk tw cmax nr nc0 cap h = Ok p ->
  nth_error M i = Some Si -> nth_error M k = Some Sk -> listing lk Sk ->
  (forall l ck w col, nth_error lk l = Some (ck, w) -> in_range nc col -> has Si col \/ (has_room chk p i 1 /\ (k <> i \/ (ck < col)%Z)) ->
    exists r, done chk tw (crs_v_insertNonZeroOwn chk tw p i col k l) (put_at M i (with_new Si [(col, w)]), nc) r /\ (r = true <-> ~ has Si col)) /\
  (forall l ws m, increasing Z.ltb (map fst ws) -> Forall (in_range nc) (map fst ws) -> map snd ws = map snd (part lk l (length ws)) -> new_columns Si ws m ->
    has_room chk p i m -> m = 0 \/ k <> i ->
    done chk tw (crs_v_insertNonZerosOwn chk tw p i (map fst ws) k l) (put_at M i (with_new Si ws), nc) m).
Proof.
  intros W add zero chk tw cmax nr nc0 cap h M nc p i k Si Sk lk C V Hr E Ni Nk Hl.
  pose proof (driven_mrep C V Hr E) as Mr. destruct (two_rows Mr Ni Nk Hl) as (A & es & g & B & gk & H & <- & Ri & Nr & Ik & Pt).
  assert (St : k <> length A -> CRSOwnProofs.stays A es g k (length es + g)).
  { intros D. unfold CRSOwnProofs.stays. lia. }
  split.
  - intros l ck w col Nl Hc Pl.
    assert (Iw : StronglySorted (fun x y : Z * W => (fst x <? fst y)%Z = true) [(col, w)]) by repeat constructor.
    assert (Fw : Forall (in_range nc) (map fst [(col, w)])) by (cbn; auto).
    pose proof (CRSProofs2.absent1 es (col, w)) as A1. cbn [fst] in A1. pose proof (present_has col Ri) as Pr.
    exists (negb (SortedProofs2.present Z.eqb fst es col)). split; [|rewrite negb_true_iff, <- Pr; destruct (SortedProofs2.present Z.eqb fst es col); intuition congruence].
    eapply lift; [exact Mr|exact Ni|exact Ri|exact Pt|exact Iw|exact Fw|]. eapply CRSOwnProofs2.v_insertOwn_row; [exact H|apply Ri|exact Nr| | |].
    + rewrite A1. destruct (SortedProofs2.present Z.eqb fst es col); [lia|]. destruct Pl as [Pl|[Pl _]]; [apply Pr in Pl; discriminate|]. apply (room_row chk _ H) in Pl. exact Pl.
    + apply nth_error_Some. congruence.
    + eapply CRSOwnProofs2.insert_same; [exact H|apply Ri|exact Nr|exact Ik|exact Nl|]. unfold CRSOwnProofs2.may_insert. destruct (SortedProofs2.present Z.eqb fst es col) eqn:Ep; [left; reflexivity|right].
      destruct Pl as [Pl|[_ Pl]]; [apply Pr in Pl; discriminate|]. destruct (Nat.eq_dec k (length A)) as [Ek|Ek]; [right|left; exact (St Ek)].
      split; [exact Ek|]. destruct Pl as [Pl|Pl]; [contradiction|exact Pl].
  - intros l ws m Iw Fw Ew Nw Ro Pl. apply CRSProofs2.keys_incr in Iw. rewrite <- (absent_new Ri Iw Nw) in *. apply (room_row chk _ H) in Ro.
    eapply lift; [exact Mr|exact Ni|exact Ri|exact Pt|exact Iw|exact Fw|].
    eapply CRSOwnProofs2.v_insertsOwn_row; [exact H|apply Ri|exact Nr|exact Iw|exact Ro|exact Ew|]. destruct Pl as [Pl|Pl]; [left; exact Pl|right; exact (St Pl)].
Qed.
Print Assumptions C79_view.

(** Entries of a row behind one which grows within its block, and of the row itself: the values inserted are not those named, the columns of the
    row are no longer sorted, or T which is not trivially copyable is read where it was moved away. *)
Definition read_row (p : pattern Z) (i : nat) : outcome (list (Z * Z)) :=
  n <- numNonZeros true p i ;;
  (fix go (k : nat) := match k with 0 => Ok [] | S k' => r <- go k' ;; c <- column true p i k' ;; w <- entry true p i k' ;; Ok (r ++ [(c, w)]) end) n.
Definition read_both {R} (m : outcome (pattern Z * R)) : outcome (list (Z * Z) * list (Z * Z) * R) :=
  '(p, r) <- m ;; a <- read_row p 0 ;; b <- read_row p 1 ;; Ok (a, b, r).
Definition h79 : list (ccall Z) := [CInserts 0 [(1, 10); (3, 30); (5, 50); (7, 70)]; CInserts 1 [(0, 100); (2, 102); (4, 104)]]%Z.
Definition full tw : outcome (pattern Z) := cdriven Z.add 0%Z true tw 100 2 9 4 (CReserveNonZeros 40 :: h79).
Definition roomy tw : outcome (pattern Z) := cdriven Z.add 0%Z true tw 100 2 9 6 h79.
Theorem C79_refuted :
  read_both (p <- full true ;; crs_insertNonZeroOwn true true BMalloc p 0 2%Z 1 0)
  = Ok ([(1, 10); (2, 70); (3, 30); (5, 50); (7, 70)], [(0, 100); (2, 102); (4, 104)], true)%Z /\
  read_both (p <- full true ;; crs_insertRowOwn true true BMalloc p 0 1 0 2)
  = Ok ([(1, 10); (5, 50); (7, 70); (3, 30); (5, 50); (7, 70)], [(0, 100); (2, 102); (4, 104)], 2%nat)%Z /\
  read_both (p <- roomy true ;; crs_insertNonZeroOwn true true BMalloc p 1 1%Z 1 2)
  = Ok ([(1, 10); (3, 30); (5, 50); (7, 70)], [(0, 100); (1, 102); (2, 102); (4, 104)], true)%Z /\
  read_both (p <- roomy false ;; crs_insertNonZeroOwn true false BMalloc p 1 1%Z 1 1) = Fault FRead /\
  read_both (p <- roomy false ;; crs_v_insertNonZeroOwn true false p 1 1%Z 1 1) = Fault FRead /\
  read_both (p <- roomy false ;; crs_insertNonZerosOwn true false BMalloc p 1 [1; 3]%Z 1 1) = Fault FRead.
Proof. vm_compute. repeat split. Qed.
Print Assumptions C79_refuted.

Example C79_case :
  read_both (p <- full true ;; crs_insertNonZeroOwn true true BMalloc p 1 1%Z 0 3)
  = Ok ([(1, 10); (3, 30); (5, 50); (7, 70)], [(0, 100); (1, 70); (2, 102); (4, 104)], true)%Z /\
  read_both (p <- roomy false ;; crs_insertRowOwn true false BMalloc p 0 1 0 2)
  = Ok ([(0, 100); (1, 10); (2, 102); (3, 30); (5, 50); (7, 70)], [(0, 100); (2, 102); (4, 104)], 2%nat)%Z /\
  read_both (p <- roomy false ;; crs_insertNonZeroOwn true false BMalloc p 1 3%Z 1 0)
  = Ok ([(1, 10); (3, 30); (5, 50); (7, 70)], [(0, 100); (2, 102); (3, 100); (4, 104)], true)%Z /\
  read_both (p <- roomy true ;; crs_v_insertNonZerosOwn true true p 1 [1; 3]%Z 0 2)
  = Ok ([(1, 10); (3, 30); (5, 50); (7, 70)], [(0, 100); (1, 50); (2, 102); (3, 70); (4, 104)], 2%nat)%Z /\
  read_both (p <- roomy true ;; crs_insertRowOwn true true BMalloc p 1 0 0 4) = Fault FDangling /\
  read_both (p <- roomy true ;; crs_removeNonZerosOwn true true p 0 0 1 2) = Ok ([(1, 10); (7, 70)], [(0, 100); (2, 102); (4, 104)], 2%nat)%Z.
Proof. vm_compute. repeat split. Qed.
(** The premises hold: row 1 has room, and the block of [full] is large enough for row 1 to grow. *)
Example C79_premises :
  (exists p, roomy true = Ok p /\ has_room true p 0 2 /\ ~ keeps true p (ents (rows p)) 1 4) /\
  (exists p, full true = Ok p /\ ~ has_room true p 1 2 /\ keeps true p (ents (rows p)) 1 2 /\ keeps true p (vals (rows p)) 1 2).
Proof.
  split; (eexists; split; [vm_compute; reflexivity|]).
  - split; [exists 4, 6; vm_compute; repeat split; lia|]. intros [(s & c & E1 & E2 & Q)|(s & c & o & E1 & E2 & E3 & Q)]; vm_compute in E1, E2; injection E1 as <-; injection E2 as <-; [lia|].
    vm_compute in E3. injection E3 as <-. revert Q. vm_compute. lia.
  - split; [|split].
    + intros (s & c & E1 & E2 & Q). vm_compute in E1, E2. injection E1 as <-. injection E2 as <-. lia.
    + right. exists 3, 4, 8. vm_compute. repeat split. lia.
    + right. exists 3, 4, 8. vm_compute. repeat split. lia.
Qed.
