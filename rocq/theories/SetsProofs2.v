(** An array of sorted rows as a vector of sets, for elements of a type [P] with a key. *)
From Coq Require Import List Arith ZArith Lia Bool Sorting.Sorted.
From Verif Require Import Base BaseProofs Mem MemProofs ArrayManipProofs BufferManip BufferManipProofs
  Sorted SortedSpec SortedProofs SortedProofs2 SortedProofs3 SortedArraySpec AoA AoASpec AoALayout AoAProofs AoAProofs2 AoAProofs4 AoS AoSSpec SetsProofs.
From Verif Require ArrayManip.
Import ListNotations.
Set Implicit Arguments.
Unset Strict Implicit.

Section Pure.
Variable P V : Type.
Variable fv : P -> V.
Variable lt eqb : V -> V -> bool.
Notation row := (list P * nat)%type.
Notation rows := (list row).
Notation pincr l := (StronglySorted (fun x y => lt (fv x) (fv y) = true) l).
Notation set := (P -> Prop).
Implicit Types A B L : rows.
Implicit Types M : list set.

Definition rowset (x : row) (S : set) : Prop := pincr (fst x) /\ forall y, In y (fst x) <-> S y.
Hypothesis T : total_order lt eqb.

Lemma irrefl v : lt v v = false. Proof. apply (irr (to_swo T)). Qed.
Lemma pincr_nodup l : pincr l -> NoDup l.
Proof.
  induction 1 as [|x l I IH F]; constructor; auto. intros Hx. rewrite Forall_forall in F. specialize (F x Hx). cbn in F.
  rewrite irrefl in F. discriminate.
Qed.
Lemma pincr_nodup_keys l : pincr l -> NoDup (map fv l).
Proof.
  induction 1 as [|x l I IH F]; simpl; constructor; auto. intros Hx. apply in_map_iff in Hx. destruct Hx as (y & E & Hy).
  rewrite Forall_forall in F. specialize (F y Hy). cbn in F. rewrite E, irrefl in F. discriminate.
Qed.
Lemma pincr_inj l x y : pincr l -> In x l -> In y l -> fv x = fv y -> x = y.
Proof.
  induction 1 as [|z l I IH F]; simpl; [tauto|]. rewrite Forall_forall in F. intros [->|Hx] [->|Hy] E; auto.
  - specialize (F y Hy). cbn in F. rewrite E, irrefl in F. discriminate.
  - specialize (F x Hx). cbn in F. rewrite E, irrefl in F. discriminate.
Qed.
Lemma card_len (S : set) n l : cardinal S n -> NoDup l -> (forall x, In x l <-> S x) -> length l = n.
Proof.
  intros (l' & N' & H' & <-) N H. apply Nat.le_antisymm; apply NoDup_incl_length; auto; intros x Hx.
  - apply H', H; auto.
  - apply H, H'; auto.
Qed.
Lemma rowset_card x S : rowset x S -> cardinal S (length (fst x)).
Proof. intros [I H]. exists (fst x). split; [apply pincr_nodup; auto|split; auto]. Qed.
Lemma rowset_len x S n : rowset x S -> cardinal S n -> length (fst x) = n.
Proof. intros [I H] C. eapply card_len; eauto. apply pincr_nodup; auto. Qed.
Lemma rowset_ext x S S' : rowset x S -> (forall y, S y <-> S' y) -> rowset x S'.
Proof. intros [I H] E. split; auto. intros y. rewrite H. apply E. Qed.

(** The part of a row before position [c] is its [c] smallest elements. *)
Lemma pincr_app l1 l2 : pincr (l1 ++ l2) -> pincr l1 /\ pincr l2 /\ forall x y, In x l1 -> In y l2 -> lt (fv x) (fv y) = true.
Proof.
  induction l1 as [|z l1 IH]; simpl; intros H; [split; [constructor|split; auto; tauto]|].
  apply StronglySorted_inv in H. destruct H as [H F]. destruct (IH H) as (H1 & H2 & H3). rewrite Forall_forall in F.
  split; [constructor; auto; apply Forall_forall; intros; apply F, in_app_iff; auto|]. split; auto.
  intros x y [<-|Hx] Hy; auto. apply F, in_app_iff; auto.
Qed.
Lemma smaller_prefix l1 x l2 : pincr (l1 ++ x :: l2) -> forall y, In y l1 <-> In y (l1 ++ x :: l2) /\ lt (fv y) (fv x) = true.
Proof.
  intros I. destruct (pincr_app I) as (I1 & I2 & I3). intros y. split.
  - intros H. split; [apply in_app_iff; auto|apply I3; simpl; auto].
  - intros [H E]. apply in_app_iff in H. destruct H as [H|[->|H]]; auto.
    + rewrite irrefl in E. discriminate.
    + apply StronglySorted_inv in I2. destruct I2 as [_ F]. rewrite Forall_forall in F. specialize (F y H). cbn in F.
      rewrite (lt_le (to_swo T) F) in E. discriminate.
Qed.
Lemma rowset_firstn r k k' S c : rowset (r, k) S -> rowset (firstn c r, k') (smallest (fun y x => lt (fv y) (fv x) = true) c S).
Proof.
  intros [I H]. simpl in *. split; simpl.
  - rewrite <- (firstn_skipn c r) in I. apply (pincr_app I).
  - intros x. unfold smallest. split.
    + intros Hx. assert (Hr : In x r) by (rewrite <- (firstn_skipn c r); apply in_app_iff; auto).
      split; [apply H; auto|]. apply in_split in Hx. destruct Hx as (l1 & l2 & E).
      assert (E2 : r = l1 ++ x :: (l2 ++ skipn c r)) by (rewrite <- (firstn_skipn c r) at 1; rewrite E, <- app_assoc; reflexivity).
      exists (length l1). split.
      * assert (length (firstn c r) = length (l1 ++ x :: l2)) by congruence. rewrite firstn_length, app_length in H0. simpl in H0. lia.
      * exists l1. rewrite E2 in I. split; [|split; auto].
        -- apply pincr_nodup. apply (pincr_app I).
        -- intros y. rewrite (smaller_prefix I y). rewrite <- E2, H. tauto.
    + intros [Sx (n & Ln & C)]. apply H in Sx. apply in_split in Sx. destruct Sx as (l1 & l2 & ->).
      assert (length l1 = n).
      { eapply card_len; [exact C| |].
        - apply pincr_nodup. apply (pincr_app I).
        - intros y. rewrite (smaller_prefix I y). rewrite H. tauto. }
      rewrite firstn_app. apply in_app_iff. right. destruct (c - length l1) eqn:E; [lia|]. simpl. auto.
Qed.

(** * Sets and lists *)
Lemma pinsert_in w es x : pincr es -> In x (pinsert lt eqb fv w es) <-> In x es \/ (x = w /\ present eqb fv es (fv w) = false).
Proof.
  intros I. destruct (present eqb fv es (fv w)) eqn:Pr.
  - rewrite (pinsert_present T) by auto. intuition discriminate.
  - clear I. induction es as [|f es IH]; simpl; [intuition|].
    simpl in Pr. apply orb_false_iff in Pr. destruct Pr as [P1 P2]. specialize (IH P2).
    destruct (lt (fv f) (fv w)) eqn:L; simpl; [rewrite IH; intuition|]. rewrite P1. simpl. intuition.
Qed.
Lemma present_false es v : present eqb fv es v = false <-> ~ exists x, In x es /\ fv x = v.
Proof.
  rewrite <- not_true_iff_false. rewrite (present_in fv T), in_map_iff.
  split; intros H [x Hx]; apply H; exists x; tauto.
Qed.
Lemma pinserts_in ws es x : pincr es -> pincr ws -> In x (fold_right (pinsert lt eqb fv) es ws) <->
  In x es \/ (In x ws /\ present eqb fv es (fv x) = false).
Proof.
  intros I. induction 1 as [|w ws Iw IH F]; simpl; [tauto|]. rewrite pinsert_in by (apply (pinserts_incr T); auto). rewrite IH.
  split.
  - intros [[H|[H1 H2]]|[-> H]]; auto. right. split; auto. apply present_false in H. apply present_false.
    intros (y & Hy & Ey). apply H. exists y. split; auto. clear -Hy T I. induction ws; simpl; auto.
    apply pinsert_in; [apply (pinserts_incr T); auto|]. auto.
  - intros [H|[[->|H1] H2]]; auto. right. split; auto. apply present_false. apply present_false in H2. intros (y & Hy & Ey).
    assert (K : In (fv x) (map fv (fold_right (pinsert lt eqb fv) es ws))) by (apply in_map_iff; eauto).
    apply (pinserts_keys fv T) in K. destruct K as [K|K]; apply in_map_iff in K; destruct K as (z & Ez & Hz).
    + rewrite Forall_forall in F. specialize (F z Hz). cbn in F. rewrite Ez, irrefl in F. discriminate.
    + apply H2. eauto.
Qed.

Lemma rowset_insert es k k' S w : rowset (es, k) S ->
  rowset (pinsert lt eqb fv w es, k') (fun x => S x \/ (x = w /\ ~ exists y, S y /\ fv y = fv w)).
Proof.
  intros [I H]. simpl in *. split; simpl; [apply (pinsert_incr T); auto|]. intros x. rewrite pinsert_in by auto.
  rewrite present_false, H. split; (intros [?|[? Q]]; [auto|right; split; auto; intros (y & Hy); apply Q; exists y; rewrite ?H in *; auto]).
Qed.
Lemma rowset_inserts es k k' S ws : rowset (es, k) S -> pincr ws ->
  rowset (fold_right (pinsert lt eqb fv) es ws, k') (fun x => S x \/ (In x ws /\ ~ exists y, S y /\ fv y = fv x)).
Proof.
  intros [I H] Iw. simpl in *. split; simpl; [apply (pinserts_incr T); auto|]. intros x. rewrite pinserts_in by auto.
  rewrite present_false, H. split; (intros [?|[? Q]]; [auto|right; split; auto; intros (y & Hy); apply Q; exists y; rewrite ?H in *; auto]).
Qed.
Lemma rowset_diff es k k' S vs : rowset (es, k) S -> rowset (pdiff eqb fv es vs, k') (fun x => S x /\ ~ In (fv x) vs).
Proof.
  intros [I H]. simpl in *. split; simpl; [apply (@pdiff_incr V P lt eqb fv); auto|]. intros x. rewrite (pdiff_in fv T), H. tauto.
Qed.
Lemma rowset_nil k : rowset ([], k) none.
Proof. split; simpl; [constructor|]. unfold none. tauto. Qed.

(** * Vectors of rows *)
Lemma f2_app_l L1 L2 M : Forall2 rowset (L1 ++ L2) M -> exists M1 M2, M = M1 ++ M2 /\ length M1 = length L1 /\ Forall2 rowset L1 M1 /\ Forall2 rowset L2 M2.
Proof.
  intros H. apply Forall2_app_inv_l in H. destruct H as (M1 & M2 & H1 & H2 & ->). exists M1, M2.
  split; auto. split; auto. clear -H1. induction H1; simpl; auto.
Qed.
Lemma f2_len {X Y} (R : X -> Y -> Prop) l l' : Forall2 R l l' -> length l = length l'.
Proof. induction 1; simpl; auto. Qed.
Lemma f2_at L M i S : Forall2 rowset L M -> nth_error M i = Some S ->
  exists A r k B, L = A ++ (r, k) :: B /\ length A = i /\ rowset (r, k) S /\
    forall x S', rowset x S' -> Forall2 rowset (A ++ x :: B) (put_at M i S').
Proof.
  intros F N. apply nth_error_split in N. destruct N as (M1 & M2 & -> & <-).
  apply Forall2_app_inv_r in F. destruct F as (L1 & L2 & F1 & F2 & ->). inversion F2 as [|[r k] ? L3 ? Fx F3]; subst.
  exists L1, r, k, L3. split; auto. pose proof (f2_len F1). split; auto. split; auto.
  intros x S' Hx. rewrite put_mid by auto. apply Forall2_app; auto.
Qed.
Lemma f2_same {X} (M : list X) i S : nth_error M i = Some S -> put_at M i S = M.
Proof. intros N. apply nth_error_split in N. destruct N as (M1 & M2 & -> & <-). apply put_mid; auto. Qed.
Lemma f2_repeat k n : Forall2 rowset (repeat ([], k) n) (repeat none n).
Proof. induction n; simpl; constructor; auto. apply rowset_nil. Qed.
Lemma f2_firstn n L M : Forall2 rowset L M -> Forall2 rowset (firstn n L) (firstn n M).
Proof. intros H. revert n; induction H; intros [|n]; simpl; constructor; auto. Qed.

End Pure.

Section Rows.
Variable P V W : Type.
Variable fv : P -> V.
Variable fw : P -> W.
Variable chk tv tw dual : bool.
Variable lt eqb : V -> V -> bool.
Hypothesis T : total_order lt eqb.
Notation kind := BMalloc.
Notation aoa := (aoa V W).
Notation row := (list P * nat)%type.
Notation rows := (list row).
Notation pincr l := (StronglySorted (fun x y => lt (fv x) (fv y) = true) l).
Notation iok := (@iok P V W).
Notation aok := (@aok P V W fv fw tv tw dual).
Notation pok := (@pok P V W fv fw tv tw dual).
Notation allt := (allt tv tw dual).
Notation set := (P -> Prop).
Implicit Types a : aoa.
Implicit Types A B L : rows.
Implicit Types M : list set.

Notation rowset := (@rowset P V fv lt).
Definition rep a M : Prop := exists L, aok a L /\ Forall2 rowset L M.

Lemma rep_num a M : rep a M -> numArrays a = length M.
Proof. intros (L & [(N & _) _] & F). rewrite N. apply (f2_len F). Qed.

Lemma new_rep n cap : oks (new_aoa V W chk tv tw dual kind n cap) (fun a => rep a (repeat none n)).
Proof.
  unfold new_aoa. apply okb_true.
  pose proof (@resize_ok P V W fv fw chk tv tw dual (null_aoa V W kind) [] n cap (@null_pok P V W fv fw tv tw dual)) as R.
  simpl nogap in R. rewrite orb_true_r in R. eapply okb_mono; [exact R|]. intros a H. eexists. split; [exact H|].
  unfold resized. simpl. rewrite firstn_nil, Nat.sub_0_r. apply f2_repeat.
Qed.

Lemma rep_resize a M n cap : rep a M -> okb allt (resizeImpl chk tv tw dual kind a n cap) (fun a' => rep a' (resized_to M n none)).
Proof.
  intros (L & H & F). apply okb_or_l with (c := nogap L). eapply okb_mono; [apply resize_ok, aok_pok; exact H|].
  intros a' H'. eexists. split; [exact H'|]. unfold resized, resized_to. apply Forall2_app; [apply f2_firstn; auto|].
  rewrite <- (f2_len F). apply f2_repeat.
Qed.
Lemma rep_resizeFrom a M caps : rep a M -> oks (resizeFromCapacities chk tv tw dual kind a caps) (fun a' => rep a' (map (fun _ => none) caps)).
Proof.
  intros (L & H & F). eapply oks_mono; [eapply resizeFromCapacities_ok, aok_pok; exact H|].
  intros a' H'. eexists. split; [exact H'|]. clear. unfold empties. induction caps; simpl; constructor; auto. apply rowset_nil.
Qed.
Lemma rep_reserve a M n : rep a M -> oks (aoa_reserve chk kind a n) (fun a' => rep a' M).
Proof. intros (L & H & F). eapply oks_mono; [apply reserve_ok; exact H|]. intros a' H'. exists L. auto. Qed.
Lemma rep_reserveValues a M n : rep a M -> okb allt (reserveValues chk tv tw dual kind a n) (fun a' => rep a' M).
Proof.
  intros (L & H & F). apply okb_or_l with (c := nogap L). eapply okb_mono; [apply reserveValues_ok; exact H|]. intros a' H'. exists L. auto.
Qed.
Lemma rep_compress a M : rep a M -> oks (compress chk tv tw dual a) (fun a' => rep a' M).
Proof.
  intros (L & H & F). eapply oks_mono; [apply compress_ok; exact H|]. intros a' H'. eexists. split; [exact H'|].
  clear -F. unfold closed. induction F as [|[r k] S L M [I R] F IH]; simpl; constructor; auto. split; auto.
Qed.
Lemma rep_append a M cap : rep a M -> okb allt (appendSet chk tv tw dual kind a cap) (fun a' => rep a' (M ++ [none])).
Proof.
  intros (L & H & F). unfold appendSet. eapply okb_bind; [left; apply push_ok; exact H|]. intros a1 H1.
  pose proof H1 as [(N1 & _) _]. rewrite N1. replace (length (L ++ [([], 0)]) - 1) with (length L) by len.
  apply okb_or_l with (c := nogap (L ++ [([], 0)])). eapply okb_mono; [eapply setCapacity_ok; [exact H1|reflexivity]|].
  intros a' H'. eexists. split; [exact H'|]. rewrite firstn_nil. apply Forall2_app; auto. constructor; auto. apply rowset_nil.
Qed.
Lemma rep_insertSet a M i cap : rep a M -> i <= length M -> okb allt (insertSet chk tv tw dual kind a i cap) (fun a' => rep a' (insert_at M i none)).
Proof.
  intros (L & H & F) Hi. rewrite <- (f2_len F) in Hi. destruct (split_le Hi) as (A & B & -> & <-).
  unfold insertSet. eapply okb_bind; [left; apply open_ok; [exact H|reflexivity]|]. intros a1 H1.
  apply okb_or_l with (c := nogap (A ++ ([], 0) :: B)). eapply okb_mono; [eapply setCapacity_ok; [exact H1|reflexivity]|].
  intros a' H'. eexists. split; [exact H'|]. rewrite firstn_nil.
  destruct (f2_app_l F) as (M1 & M2 & -> & E & F1 & F2). rewrite <- E, ins_mid by auto.
  apply Forall2_app; auto. constructor; auto. apply rowset_nil.
Qed.
Lemma rep_eraseSet a M i : rep a M -> i < length M -> okb allt (eraseSet chk tv tw dual kind a i) (fun a' => rep a' (remove_at M i)).
Proof.
  intros (L & H & F) Hi. rewrite <- (f2_len F) in Hi. destruct (split_lt Hi) as (A & x & B & -> & <-).
  unfold eraseSet. apply okb_or_l with (c := nogap (A ++ x :: B)). eapply okb_mono; [eapply erase_ok; [exact H|reflexivity]|].
  intros a' H'. eexists. split; [exact H'|].
  destruct (f2_app_l F) as (M1 & M2 & -> & E & F1 & F2). inversion F2; subst. rewrite <- E, rem_mid by auto.
  apply Forall2_app; auto.
Qed.
Lemma rep_setCapacity a M i S c : rep a M -> nth_error M i = Some S ->
  okb allt (setCapacityOfArray chk tv tw dual kind a i c) (fun a' => rep a' (put_at M i (smallest (fun y x => lt (fv y) (fv x) = true) c S))).
Proof.
  intros (L & H & F) N. destruct (f2_at F N) as (A & r & k & B & -> & <- & R & Pt).
  apply okb_or_l with (c := nogap (A ++ (r, k) :: B)). eapply okb_mono; [eapply setCapacity_ok; [exact H|reflexivity]|].
  intros a' H'. eexists. split; [exact H'|]. apply Pt. eapply rowset_firstn; eauto.
Qed.
Lemma rep_reserveCapacity a M i S c : rep a M -> nth_error M i = Some S ->
  okb allt (reserveCapacityOfSet chk tv tw dual kind a i c) (fun a' => rep a' M).
Proof.
  intros (L & H & F) N. destruct (f2_at F N) as (A & r & k & B & -> & <- & R & Pt). pose proof H as [I _].
  unfold reserveCapacityOfSet. rewrite (row_check chk I). cbn [bind]. rewrite (row_capacity chk I). cbn [bind].
  destruct (Nat.ltb_spec (length r + k) c).
  - apply okb_or_l with (c := nogap (A ++ (r, k) :: B)). eapply okb_mono; [eapply setCapacity_ok; [exact H|reflexivity]|].
    intros a' H'. eexists. split; [exact H'|]. rewrite firstn_all2 by lia.
    assert (Q : rowset (r, c - length r) S) by exact R.
    specialize (Pt _ _ Q). rewrite f2_same in Pt by auto. exact Pt.
  - left. apply oks_ok. eexists. split; [exact H|exact F].
Qed.
Lemma rep_dtor a M : rep a M -> aoa_dtor chk tv tw dual kind a = Ok tt.
Proof. intros (L & H & _). unfold aoa_dtor. destruct (free_ok chk (aok_pok H)) as (a' & -> & _). reflexivity. Qed.

(** Indices out of range. *)
Lemma bad_check a M i : chk = true -> rep a M -> nth_error M i = None -> check_array chk a i = Abort.
Proof. intros -> R N. apply nth_error_None in N. unfold check_array, check_if. rewrite (rep_num R). destruct (Nat.leb_spec (length M) i); [reflexivity|lia]. Qed.
Lemma bad_insert a M i : chk = true -> rep a M -> length M < i -> check_array_insert chk a i = Abort.
Proof. intros -> R N. unfold check_array_insert, check_if. rewrite (rep_num R). destruct (Nat.ltb_spec (length M) i); [reflexivity|lia]. Qed.

(** Reading. *)
Lemma rep_size a M i S n : rep a M -> nth_error M i = Some S -> cardinal S n -> sizeOfArray chk a i = Ok n.
Proof.
  intros (L & [I _] & F) N C. destruct (f2_at F N) as (A & r & k & B & -> & <- & R & _).
  rewrite (row_size chk I). f_equal. apply (rowset_len T R C).
Qed.
Lemma rep_contains a M i S v : rep a M -> nth_error M i = Some S ->
  exists b, aos_contains chk lt eqb a i v = Ok b /\ (b = true <-> exists x, S x /\ fv x = v).
Proof.
  intros (L & [I [Ev _]] & F) N. destruct (f2_at F N) as (A & r & k & B & -> & <- & [Ir R] & _). simpl in *.
  unfold aos_contains. rewrite (row_check chk I). cbn [bind]. rewrite (row_size chk I). cbn [bind]. rewrite (row_values fv chk I). cbn [bind].
  destruct (lay_row Ev) as [q Mm].
  pose proof (@contains_ok V P tv lt eqb fv T (vals a) (flat fv A) (repeat LN k ++ flat fv B ++ repeat LN q) r v _ _ Mm Ir eq_refl eq_refl) as C.
  eexists. split; [exact C|]. rewrite (present_in fv T), in_map_iff. split; intros (x & H1 & H2); exists x; rewrite ?R in *; auto.
Qed.
End Rows.
