(** A column which is out of range, inserted into a row which is full. *)
From Coq Require Import List Arith ZArith Lia Bool Sorting.Sorted.
From Verif Require Import Base BaseProofs Mem MemProofs ArrayManipProofs BufferManip BufferManipProofs
  Sorted SortedSpec SortedProofs SortedProofs2 SortedProofs3 SortedArraySpec AoA AoASpec AoALayout AoAProofs AoAProofs2 AoAProofs4
  AoS AoSSpec SetsProofs SetsProofs2 AoSProofs Sparsity SparsitySpec SparsityProofs.
From Verif Require ArrayManip AoAProofs3.
Import ListNotations.
Set Implicit Arguments.
Unset Strict Implicit.

(** No error handler is reached. *)
Definition noabort {A} (m : outcome A) : Prop := m <> Abort.
Lemma na_bind {A B} (m : outcome A) (k : A -> outcome B) : noabort m -> (forall x, noabort (k x)) -> noabort (bind m k).
Proof. destruct m; simpl; intros H K; [apply K|destruct (H eq_refl)|discriminate]. Qed.
Lemma na_ok {A} (x : A) : noabort (Ok x). Proof. discriminate. Qed.
Lemma na_fault {A} f : noabort (@Fault A f). Proof. discriminate. Qed.
Lemma na_up {A} (f : nat -> A -> outcome A) n i s : (forall i s, noabort (f i s)) -> noabort (for_up n f i s).
Proof. intros H. revert i s; induction n; intros; simpl; [apply na_ok|]. apply na_bind; auto. Qed.
Lemma na_down {A} (f : nat -> A -> outcome A) n s : (forall i s, noabort (f i s)) -> noabort (for_down n f s).
Proof. intros H. revert s; induction n; intros; simpl; [apply na_ok|]. apply na_bind; auto. Qed.
Lemma na_aget {A} (l : list A) i : noabort (aget l i).
Proof. unfold aget. destruct (nth_error l i); discriminate. Qed.
Lemma na_aset {A} (l : list A) i x : noabort (aset l i x).
Proof. unfold aset. destruct (i <? length l); discriminate. Qed.
Lemma na_place {V} t (b : buf V) i c : noabort (place t b i c).
Proof. apply na_bind; [apply na_aget|]. intros [ |v| ]; try destruct t; try apply na_aset; apply na_fault. Qed.
Lemma na_take {V} t (b : buf V) i : noabort (take t b i).
Proof.
  apply na_bind; [apply na_aget|]. intros c. destruct t; [apply na_ok|]. destruct c; try apply na_fault; try apply na_ok.
  apply na_bind; [apply na_aset|]. intros; apply na_ok.
Qed.
Lemma na_mconstruct {V} t (b : buf V) i j : noabort (mconstruct t b i j).
Proof. apply na_bind; [apply na_take|]. intros [c b1]. apply na_place. Qed.
Lemma na_destroy1 {V} t (b : buf V) i : noabort (destroy1 t b i).
Proof. apply na_bind; [apply na_aget|]. intros c. destruct t; [apply na_ok|]. destruct c; try apply na_fault; apply na_aset. Qed.
Lemma na_emplace {V} chk t (b : buf V) p n i v : i <= n -> noabort (ArrayManip.emplace chk t b p n i v).
Proof.
  intros Le. unfold ArrayManip.emplace, ArrayManip.check_insert_bounds.
  assert (C : check_if chk (n <? i) = Ok tt) by (apply check_if_ok; apply Nat.ltb_ge; auto).
  rewrite C. cbn [bind]. apply na_bind.
  - unfold ArrayManip.shiftUp, ArrayManip.check_insert_bounds. rewrite C. cbn [bind Nat.eqb].
    apply na_bind; [apply na_down; intros; apply na_mconstruct|]. intros b1. apply na_up. intros; apply na_destroy1.
  - intros b1. apply na_place.
Qed.

Section Overflow.
Variable W : Type.
Variable w0 : W.
Variable chk tw : bool.
Notation kind := BMalloc.
Notation idv := (fun v : Z => v).
Notation fw := (fun _ : Z => w0).

Lemma full_row_overflow (p : pattern W) M nc i S col : prep w0 tw p (M, nc) -> nth_error M i = Some S -> cardinal S nc ->
  nonZeroCapacity chk p i = Ok nc -> ~ in_range nc col ->
  match insertNonZero chk tw false kind p i col with
  | Ok (p', r) => r = true /\ numNonZeros chk p' i = Ok (nc + 1) /\ nonZeroCapacity chk p' i = Ok nc
  | Abort => False
  | Fault _ => True
  end.
Proof.
  intros (R & E & G) N C Ec Hc. simpl in R, E, G. pose proof (ranged_at G N) as GS.
  destruct R as (L & H & F). destruct (f2_at F N) as (A & es & k & B & -> & <- & Rs & Pt). pose proof H as [I [Ev Ee]].
  assert (Ln : length es = nc) by exact (rowset_len zorder Rs C).
  unfold nonZeroCapacity in Ec. rewrite (row_capacity chk I) in Ec. injection Ec as Ek. assert (k = 0) by lia. subst k.
  destruct Rs as [Ic Hs]. cbn [fst] in *.
  assert (Ab : present Z.eqb idv es col = false).
  { apply (present_false idv zorder). intros (x & Hx & <-). apply Hc, GS, Hs. exact Hx. }
  unfold insertNonZero, with_rows, insertIntoSetImpl.
  rewrite (row_check chk I). cbn [bind]. rewrite (row_size chk I). cbn [bind]. rewrite (row_values idv chk I). cbn [bind].
  destruct (lay_row Ev) as [q Mm].
  unfold insert. destruct (psplit zorder col Ic) as (f1 & g1 & Es & LA & GB).
  assert (Ls : length es = length f1 + length g1) by (rewrite Es, app_length; auto).
  pose proof Mm as M0. rewrite Es in M0. pose proof Ic as I0. rewrite Es in I0.
  rewrite (@insert_pos_ok Z Z true Z.ltb Z.eqb idv zorder _ _ _ _ _ _ _ _ M0 I0 LA GB eq_refl Ls). cbn [bind].
  rewrite (@check_present Z Z true Z.ltb Z.eqb idv zorder _ _ _ _ _ _ _ _ M0 I0 LA GB eq_refl Ls). cbn [bind]. rewrite <- Es, Ab.
  unfold sp_cb, grow_cb. cbn [cb_inc cb_ev].
  assert (Ea : set_vals (vals (rows p)) (rows p) = rows p) by (destruct (rows p); reflexivity). rewrite Ea.
  rewrite (row_size chk I). cbn [bind]. rewrite (row_capacity chk I). cbn [bind].
  replace (length es + 0 <? length es + 1) with true by (symmetry; apply Nat.ltb_lt; lia).
  assert (Ecl : clamp p ((length es + 1) * 2) = length es).
  { unfold clamp. rewrite E, Ln. destruct (Nat.ltb_spec nc ((nc + 1) * 2)); lia. }
  rewrite Ecl.
  assert (Set0 : setCapacityOfArray chk true tw false kind (rows p) (length A) (length es) = Ok (rows p)).
  { unfold setCapacityOfArray. rewrite (row_check chk I). cbn [bind]. rewrite (row_capacity chk I). cbn [bind].
    replace (length es =? length es + 0) with true by (symmetry; apply Nat.eqb_eq; lia). reflexivity. }
  rewrite Set0. cbn [bind]. rewrite (row_values idv chk I). cbn [bind].
  assert (Na : noabort (ArrayManip.emplace chk true (vals (rows p)) (length (flat idv A)) (length es) (length f1) col))
    by (apply na_emplace; lia).
  destruct (ArrayManip.emplace chk true (vals (rows p)) (length (flat idv A)) (length es) (length f1) col) as [b| |]; [|destruct (Na eq_refl)|exact Logic.I]. cbn [bind fst].
  assert (I2 : iok (set_vals b (rows p)) (A ++ (es, 0) :: B)) by exact I.
  rewrite (row_size_ I2). cbn [bind].
  (* recording the size: the sizes buffer alone *)
  destruct I2 as (Nn & Oo & Zz). unfold put_size.
  assert (P1 : oks (assign true (szs (set_vals b (rows p))) (length A) (length es + 1)) (fun z => holds true z (sizes A ++ [length es + 1] ++ sizes B))).
  { eapply oks_mono; [eapply assign_mid with (xs := sizes A) (y := length es) (ys := sizes B)|].
    - eapply holds_eq; [exact Zz|]. rewrite sizes_app. reflexivity.
    - rewrite sizes_length. reflexivity.
    - intros z [Hz _]. exact Hz. }
  destruct P1 as (z & Ez & Hz). rewrite Ez. cbn [bind]. split; auto. cbn [ncols rows].
  unfold numNonZeros, nonZeroCapacity, sizeOfArray, capacityOfArray, size_, offset, check_array in *. cbn [rows numArrays szs offs set_szs set_vals] in *.
  pose proof (row_check chk I) as Ck. unfold check_array in Ck. rewrite Ck. cbn [bind].
  split.
  - eapply holds_rd; [exact Hz|]. rewrite nth_error_app2; rewrite sizes_length; [|lia]. rewrite Nat.sub_diag. rewrite Ln. reflexivity.
  - pose proof (row_capacity chk I) as Kc. unfold capacityOfArray, check_array, offset in Kc. rewrite Ck in Kc. cbn [bind] in Kc. rewrite Kc. f_equal. lia.
Qed.
End Overflow.
