(** Changing the entries of a CRSMatrix. *)
From Coq Require Import List Arith ZArith Lia Bool Sorting.Sorted.
From Verif Require Import Base BaseProofs Mem MemProofs ArrayManipProofs BufferManip BufferManipProofs
  Sorted SortedSpec SortedProofs SortedProofs2 SortedProofs3 SortedArraySpec AoA AoASpec AoALayout AoAProofs AoAProofs2 AoAProofs4
  AoS AoSSpec SetsProofs SetsProofs2 AoSProofs Sparsity SparsitySpec SparsityProofs CRS CRSSpec CRSProofs CRSProofs2.
From Verif Require ArrayManip.
Import ListNotations.
Set Implicit Arguments.
Unset Strict Implicit.

Section CRS.
Variable W : Type.
Variable chk tw : bool.
Variable add : W -> W -> W.
Notation kind := BMalloc.
Notation aoa := (aoa Z W).
Notation matrix := (pattern W).
Notation P := (Z * W)%type.
Notation fv := (@fst Z W).
Notation fw := (@snd Z W).
Notation row := (list P * nat)%type.
Notation rows_t := (list row).
Notation aok := (@aok P Z W fv fw true tw true).
Notation iok := (@iok P Z W).
Notation rowset := (@rowset P Z fv Z.ltb).
Notation rep := (@rep P Z W fv fw true tw true Z.ltb).
Notation mrep := (@mrep W tw).
Notation pincr l := (StronglySorted (fun x y => (fst x <? fst y)%Z = true) l).
Notation LWs := (map (@LV W)).
Notation row_map := (row_map W).
Notation added := (added add).
Implicit Types a : aoa.
Implicit Types A B L : rows_t.
Implicit Types p : matrix.
Implicit Types M : list row_map.

(** Rows with other entries but the same columns. *)
Definition same_keys (L L' : rows_t) : Prop := Forall2 (fun x y => map fv (fst x) = map fv (fst y) /\ snd x = snd y) L L'.
Lemma sk_refl L : same_keys L L.
Proof. induction L; constructor; auto. Qed.
Lemma sk_app A A' B B' : same_keys A A' -> same_keys B B' -> same_keys (A ++ B) (A' ++ B').
Proof. apply Forall2_app. Qed.
Lemma sk_len L L' : same_keys L L' -> length L = length L'.
Proof. induction 1; simpl; auto. Qed.
Lemma sk_wid (x y : row) : map fv (fst x) = map fv (fst y) -> snd x = snd y -> length (fst x) = length (fst y) /\ wid x = wid y.
Proof. intros E K. apply (f_equal (@length Z)) in E. rewrite !map_length in E. unfold wid. lia. Qed.
Lemma sk_offsets L L' n : same_keys L L' -> offsets n L = offsets n L'.
Proof.
  intros H. revert n. induction H as [|x y L L' [E K] H IH]; intros n; simpl; auto. destruct (sk_wid E K) as [_ Ew]. rewrite Ew, IH. reflexivity.
Qed.
Lemma sk_sizes L L' : same_keys L L' -> sizes L = sizes L'.
Proof. induction 1 as [|x y L L' [E K] H IH]; simpl; auto. destruct (sk_wid E K) as [El _]. unfold sizes in *. simpl. rewrite El, IH. reflexivity. Qed.
Lemma sk_flat L L' : same_keys L L' -> flat fv L = flat fv L'.
Proof. induction 1 as [|x y L L' [E K] H IH]; simpl; auto. unfold cells. rewrite E, K, IH. reflexivity. Qed.
Lemma new_entries a L L' b : aok a L -> same_keys L L' -> lay fw tw b L' -> aok (set_ents b a) L'.
Proof.
  intros [(N & O & Sz) [[q Lv] _]] S Lb. split; [split; [|split]|split].
  - cbn. rewrite N. apply sk_len; auto.
  - cbn. rewrite <- (sk_offsets 0 S). exact O.
  - cbn. rewrite <- (sk_sizes S). exact Sz.
  - exists q. cbn. rewrite <- (sk_flat S). exact Lv.
  - intros _. exact Lb.
Qed.

(** ** Adding *)
Lemma add_at_ok b A f c w g k B v : lay fw tw b (A ++ (f ++ (c, w) :: g, k) :: B) ->
  oks (add_at tw add b (length (flat fv A) + length f) v) (fun b' => lay fw tw b' (A ++ (f ++ (c, add w v) :: g, k) :: B)).
Proof.
  intros L. destruct (lay_row L) as [q M]. unfold add_at.
  assert (E : forall u, flat fw A ++ LWs (map fw (f ++ (c, u) :: g)) ++ repeat LN k ++ flat fw B ++ repeat LN q =
              (flat fw A ++ LWs (map fw f)) ++ LV u :: LWs (map fw g) ++ repeat LN k ++ flat fw B ++ repeat LN q).
  { intros u. rewrite !map_app. simpl. rewrite <- !app_assoc. reflexivity. }
  rewrite E in M. assert (Ei : length (flat fv A) + length f = length (flat fw A ++ LWs (map fw f))).
  { rewrite app_length, !map_length, !flat_length. reflexivity. }
  erewrite rd_ok; [|exact M|exact Ei]. cbn [bind]. eapply oks_mono.
  - eapply assign_ok; [exact M|exact Ei|discriminate].
  - intros b' M'. rewrite <- E in M'. eapply row_lay. exact M'.
Qed.

Lemma pincr_split (f : list P) e g : pincr (f ++ e :: g) ->
  Forall (fun x => (fst x <? fst e)%Z = true) f /\ Forall (fun x => (fst e <? fst x)%Z = true) g.
Proof.
  induction f as [|x f IH]; simpl; intros H; inversion H; subst.
  - split; auto.
  - destruct (IH H2) as [H4 H5]. split; auto. constructor; auto. rewrite Forall_forall in H3. apply H3, in_app_iff. simpl. auto.
Qed.
Lemma pincr_rekey (f : list P) c w w' g : pincr (f ++ (c, w) :: g) -> pincr (f ++ (c, w') :: g).
Proof.
  intros H. apply (proj1 (map_key_incr Z.ltb fv _)). apply (proj2 (map_key_incr Z.ltb fv _)) in H. rewrite map_app in *. exact H.
Qed.
Lemma rowset_bump f c w g k v S : rowset (f ++ (c, w) :: g, k) S -> rowset (f ++ (c, add w v) :: g, k) (added [(c, v)] S).
Proof.
  intros [I R]. cbn [fst] in *. split; [eapply pincr_rekey; exact I|]. cbn [fst]. intros [c' u].
  destruct (pincr_split I) as [Fl Gr]. unfold CRSSpec.added, contributions. cbn [fst snd filter].
  destruct (Z.eqb_spec c c') as [<-|Ne]; cbn [map fold_left snd].
  - split.
    + intros H. apply in_app_iff in H. destruct H as [H|[H|H]].
      * rewrite Forall_forall in Fl. apply Fl in H. cbn in H. rewrite Z.ltb_irrefl in H. discriminate.
      * injection H as <-. exists w. split; auto. apply R. apply in_app_iff. simpl. auto.
      * rewrite Forall_forall in Gr. apply Gr in H. cbn in H. rewrite Z.ltb_irrefl in H. discriminate.
    + intros (u0 & Su & ->). apply R in Su. assert (u0 = w).
      { apply in_app_iff in Su. destruct Su as [H|[H|H]].
        - rewrite Forall_forall in Fl. apply Fl in H. cbn in H. rewrite Z.ltb_irrefl in H. discriminate.
        - congruence.
        - rewrite Forall_forall in Gr. apply Gr in H. cbn in H. rewrite Z.ltb_irrefl in H. discriminate. }
      subst. apply in_app_iff. simpl. auto.
  - split.
    + intros H. exists u. split; auto. apply R. apply in_app_iff in H. apply in_app_iff. destruct H as [H|[H|H]]; auto.
      * congruence.
      * simpl. auto.
    + intros (u0 & Su & ->). apply R in Su. apply in_app_iff in Su. apply in_app_iff. destruct Su as [H|[H|H]]; auto.
      * congruence.
      * simpl. auto.
Qed.
Lemma added_cons cv adds S e : added adds (added [cv] S) e <-> added (cv :: adds) S e.
Proof.
  unfold CRSSpec.added, contributions. cbn [filter]. destruct (Z.eqb_spec (fst cv) (fst e)); cbn [map fold_left fst snd].
  - split.
    + intros (w & (w0 & H & ->) & E). exists w0. cbn [fst snd] in *. rewrite (proj2 (Z.eqb_eq _ _) e0) in E. cbn in E. auto.
    + intros (w0 & H & E). exists (add w0 (snd cv)). cbn [fst snd]. rewrite (proj2 (Z.eqb_eq _ _) e0). split; eauto.
  - split.
    + intros (w & (w0 & H & ->) & E). exists w0. cbn [fst snd] in *. rewrite (proj2 (Z.eqb_neq _ _) n) in E. cbn in E. auto.
    + intros (w0 & H & E). exists w0. cbn [fst snd]. rewrite (proj2 (Z.eqb_neq _ _) n). split; eauto.
Qed.
Lemma added_has adds S c : has (added adds S) c <-> has S c.
Proof.
  unfold has, CRSSpec.added. cbn [fst snd]. split.
  - intros (w & w0 & H & _). eauto.
  - intros (w & H). eauto.
Qed.
Lemma split_has es k S c : rowset (es, k) S -> has S c -> exists f w g, es = f ++ (c, w) :: g.
Proof. intros [_ R] [w H]. apply R in H. apply in_split in H. destruct H as (f & g & E). exists f, w, g. exact E. Qed.

(** The columns of the row, the same during all additions. *)
Lemma find_key b A r k B f c w g j : lay fv true b (A ++ (r, k) :: B) -> map fv r = map fv (f ++ (c, w) :: g) ->
  pincr (f ++ (c, w) :: g) -> j <= length f ->
  find Z.ltb b (length (flat fv A) + j) (length r - j) c = Ok (length f - j).
Proof.
  intros L K I Le. destruct (lay_row L) as [q M]. rewrite K in M. destruct (pincr_split I) as [Fl Gr].
  pose proof (f_equal (@length Z) K) as Kl. rewrite !map_length, app_length in Kl. simpl in Kl.
  replace (length f - j) with (length (map fv (skipn j f))) by (rewrite map_length, skipn_length; auto).
  eapply (find_ok (triv := true)) with (p := flat fv A ++ map LV (map fv (firstn j f))) (c := c :: map fv g)
    (s := repeat LN k ++ flat fv B ++ repeat LN q).
  - eapply mem_cast; [exact M|]. rewrite <- (firstn_skipn j f) at 1. rewrite !map_app. simpl. rewrite <- !app_assoc. reflexivity.
  - rewrite Forall_map. apply Forall_forall. intros x Hx. rewrite Forall_forall in Fl. apply Fl. eapply in_skipn; eauto.
  - constructor; [apply Z.ltb_irrefl|]. rewrite Forall_map. eapply Forall_impl; [|exact Gr]. simpl. intros x Hx.
    apply Z.ltb_lt in Hx. apply Z.ltb_ge. lia.
  - rewrite app_length, !map_length, firstn_length. lia.
  - rewrite map_length, skipn_length. simpl. rewrite map_length. lia.
Qed.
Lemma linear_key b A r k B c f w g cur : lay fv true b (A ++ (r, k) :: B) -> map fv r = map fv (f ++ (c, w) :: g) ->
  pincr (f ++ (c, w) :: g) -> forall n j, j + n = length f -> linear b (length (flat fv A)) (length r - j) j cur c = Ok (length f).
Proof.
  intros L K I. destruct (lay_row L) as [q M]. rewrite K in M. destruct (pincr_split I) as [Fl _].
  pose proof (f_equal (@length Z) K) as Kl. rewrite !map_length, app_length in Kl. simpl in Kl.
  assert (Rd : forall i x, nth_error (map fv (f ++ (c, w) :: g)) i = Some x -> rd b (length (flat fv A) + i) = Ok x).
  { intros i x N. eapply rd_nth; [exact M|]. rewrite nth_error_app2 by lia. replace (length (flat fv A) + i - length (flat fv A)) with i by lia.
    rewrite nth_error_app1 by (rewrite map_length; apply nth_error_Some; rewrite N; discriminate).
    rewrite nth_error_map, N. reflexivity. }
  induction n as [|n IH]; intros j E.
  - replace (length r - j) with (Datatypes.S (length g)) by lia. cbn [linear]. rewrite (Rd j c).
    + cbn [bind]. rewrite Z.eqb_refl. f_equal. lia.
    + rewrite map_app, nth_error_app2 by (rewrite map_length; lia). rewrite map_length. replace (j - length f) with 0 by lia. reflexivity.
  - destruct (nth_error f j) as [x|] eqn:Nx; [|apply nth_error_None in Nx; lia].
    replace (length r - j) with (Datatypes.S (length r - (j + 1))) by lia. cbn [linear]. rewrite (Rd j (fst x)).
    + cbn [bind]. assert (Lt : (fst x <? c)%Z = true) by (rewrite Forall_forall in Fl; apply Fl; eapply nth_error_In; eauto).
      apply Z.ltb_lt in Lt. destruct (Z.eqb_spec (fst x) c); [lia|]. apply IH. lia.
    + rewrite map_app, nth_error_app1 by (rewrite map_length; lia). rewrite nth_error_map, Nx. reflexivity.
Qed.

(** What holds of the row between two additions. *)
Definition mid A (r : list P) k B (b : buf W) (es : list P) (S : row_map) : Prop :=
  lay fw tw b (A ++ (es, k) :: B) /\ rowset (es, k) S /\ map fv r = map fv es.
Lemma mid_step A r k B b f c w g S v : mid A r k B b (f ++ (c, w) :: g) S ->
  oks (add_at tw add b (length (flat fv A) + length f) v) (fun b' => mid A r k B b' (f ++ (c, add w v) :: g) (added [(c, v)] S)).
Proof.
  intros (L & R & K). eapply oks_mono; [apply add_at_ok; exact L|]. intros b' L'. split; [exact L'|]. split; [apply rowset_bump; exact R|].
  rewrite K, !map_app. reflexivity.
Qed.
Lemma fold_bad {X Y} (f : outcome X -> Y -> outcome X) l : (forall y, f Abort y = Abort) -> fold_left f l Abort = Abort.
Proof. intros H. induction l; simpl; auto. rewrite H. auto. Qed.
Definition ends A r k B adds S (b' : buf W) : Prop := exists es', lay fw tw b' (A ++ (es', k) :: B) /\ map fv r = map fv es' /\ rowset (es', k) (added adds S).
Lemma ends_nil A r k B b es S : mid A r k B b es S -> ends A r k B [] S b.
Proof.
  intros (L & R & K). exists es. split; auto. split; auto. eapply rowset_ext; [exact R|]. intros e. unfold CRSSpec.added, contributions. simpl.
  split; [intros H; exists (snd e); destruct e; auto|intros (w & H & E); destruct e; simpl in *; subst; auto].
Qed.
Lemma ends_cons A r k B cv adds S b : ends A r k B adds (added [cv] S) b -> ends A r k B (cv :: adds) S b.
Proof. intros (es & L & K & R). exists es. split; auto. split; auto. eapply rowset_ext; [exact R|]. intros e. apply added_cons. Qed.

Lemma unsorted_ok bv A r k B adds : lay fv true bv (A ++ (r, k) :: B) -> forall b es S, mid A r k B b es S ->
  (forall c, In c (map fst adds) -> has S c) ->
  oks (fold_left (fun st cv => b <- st ;; pos <- find Z.ltb bv (length (flat fv A)) (length r) (fst cv) ;;
                               add_at tw add b (length (flat fv A) + pos) (snd cv)) adds (Ok b)) (ends A r k B adds S).
Proof.
  intros Lv. induction adds as [|[c v] adds IH]; intros b es S Md H; simpl fold_left.
  - apply oks_ok. eapply ends_nil; eauto.
  - pose proof Md as (_ & R & K). destruct (split_has R (H c (or_introl eq_refl))) as (f & w & g & ->).
    pose proof (find_key (j := 0) Lv K (proj1 R) (Nat.le_0_l _)) as Fk. rewrite Nat.add_0_r, !Nat.sub_0_r in Fk. cbn [fst snd]. rewrite Fk. cbn [bind].
    destruct (mid_step v Md) as (b' & -> & Md'). eapply oks_mono; [eapply IH; [exact Md'|]|].
    + intros c' Hc. apply added_has. apply H. right. exact Hc.
    + intros b2 En. apply ends_cons. exact En.
Qed.

(** Both sorted searches start at [cur], after the columns dealt with. *)
Section Searching.
Variable bv : buf Z.
Variables (A B : rows_t) (r : list P) (k : nat).
Variable search : nat -> Z -> outcome nat.
Hypothesis Hs : forall f c w g cur, map fv r = map fv (f ++ (c, w) :: g) -> pincr (f ++ (c, w) :: g) -> cur <= length f -> search cur c = Ok (length f).
Lemma sorted_ok adds : forall b es S cur, mid A r k B b es S -> (forall c, In c (map fst adds) -> has S c) ->
  StronglySorted (fun x y => (x <? y)%Z = true) (map fst adds) ->
  (forall e c, In e (firstn cur es) -> In c (map fst adds) -> (fst e < c)%Z) ->
  oks (fold_left (fun st cv => '(b, cur) <- st ;; pos <- search cur (fst cv) ;;
                               b' <- add_at tw add b (length (flat fv A) + pos) (snd cv) ;; Ok (b', pos + 1)) adds (Ok (b, cur)))
      (fun x => ends A r k B adds S (fst x)).
Proof.
  induction adds as [|[c v] adds IH]; intros b es S cur Md H I Lo; simpl fold_left.
  - apply oks_ok. eapply ends_nil; eauto.
  - pose proof Md as (_ & R & K). destruct (split_has R (H c (or_introl eq_refl))) as (f & w & g & ->).
    assert (Le : cur <= length f).
    { destruct (Nat.le_gt_cases cur (length f)) as [|Gt]; auto. exfalso.
      assert (In (c, w) (firstn cur (f ++ (c, w) :: g))).
      { rewrite firstn_app. apply in_app_iff. right. replace (cur - length f) with (Datatypes.S (cur - length f - 1)) by lia. simpl. auto. }
      specialize (Lo (c, w) c H0 (or_introl eq_refl)). cbn in Lo. lia. }
    cbn [fst snd]. rewrite (Hs K (proj1 R) Le). cbn [bind].
    destruct (mid_step v Md) as (b' & -> & Md'). cbn [bind]. cbn [map] in I. inversion I; subst. eapply oks_mono; [eapply IH; [exact Md'|auto|auto|]|].
    + intros c' Hc. apply added_has. apply H. right. exact Hc.
    + intros e c' He Hc. rewrite firstn_app in He. replace (length f + 1 - length f) with 1 in He by lia. cbn [firstn] in He.
      rewrite Forall_forall in H3. specialize (H3 c' Hc). cbn in H3. apply Z.ltb_lt in H3.
      apply in_app_iff in He. destruct He as [He|[<-|[]]]; [|exact H3].
      apply in_firstn in He. destruct (pincr_split (proj1 R)) as [Fl _]. rewrite Forall_forall in Fl. apply Fl in He. apply Z.ltb_lt in He.
      cbn in He. lia.
    + intros b2 En. apply ends_cons. exact En.
Qed.
End Searching.

Lemma ends_rep p M nc A r k B S adds b : mrep p (M, nc) -> aok (rows p) (A ++ (r, k) :: B) -> nth_error M (length A) = Some S ->
  (forall x S', rowset x S' -> Forall2 rowset (A ++ x :: B) (put_at M (length A) S')) ->
  ends A r k B adds S b -> mrep (mkSP (set_ents b (rows p)) (ncols p)) (put_at M (length A) (added adds S), nc).
Proof.
  intros (_ & E & G) H N Pt (es & L & K & R). cbn [fst snd] in *. split; [|split; [exact E|]].
  - exists (A ++ (es, k) :: B). split; [|apply Pt; exact R]. cbn [rows fst]. eapply new_entries; [exact H|  |exact L].
    apply sk_app; [apply sk_refl|]. constructor; [split; auto|apply sk_refl].
  - cbn [fst snd]. apply mranged_put; auto. intros x Hx. apply (proj1 (added_has adds S x)) in Hx. exact (mranged_at G N Hx).
Qed.
Lemma mid_start p M nc i S : mrep p (M, nc) -> nth_error M i = Some S ->
  exists A r k B, length A = i /\ aok (rows p) (A ++ (r, k) :: B) /\ mid A r k B (ents (rows p)) r S /\
    (forall x S', rowset x S' -> Forall2 rowset (A ++ x :: B) (put_at M (length A) S')).
Proof.
  intros ((L & H & F) & E & G) N. cbn [fst snd] in *. destruct (f2_at F N) as (A & es & k & B & -> & <- & R & Pt).
  exists A, es, k, B. split; auto. split; [exact H|]. destruct H as [_ [_ Le]]. split; [|exact Pt]. split; [apply Le; reflexivity|]. auto.
Qed.

Lemma addUnsorted_rep p M nc i S adds : mrep p (M, nc) -> nth_error M i = Some S -> (forall c, In c (map fst adds) -> has S c) ->
  oks (addUnsorted chk tw add p i adds) (fun p' => mrep p' (put_at M i (added adds S), nc)).
Proof.
  intros R N H. destruct (mid_start R N) as (A & r & k & B & <- & H0 & Md & Pt). pose proof H0 as [Ia [Lv _]].
  unfold addUnsorted, numNonZeros. rewrite (row_size chk Ia). cbn [bind]. rewrite (row_values fv chk Ia). cbn [bind]. rewrite (row_entries chk Ia). cbn [bind].
  eapply oks_bind; [eapply unsorted_ok; [exact Lv|exact Md|exact H]|]. intros b En. apply oks_ok. eapply ends_rep; eauto.
Qed.
Lemma fold_ext {X Y} (f g : X -> Y -> X) l x : (forall x y, f x y = g x y) -> fold_left f l x = fold_left g l x.
Proof. intros H. revert x. induction l; intros x; simpl; auto. rewrite H. auto. Qed.
Lemma bind_fst {X Y Z'} (m : outcome (X * Y)) (h : X -> outcome Z') (Q : Z' -> Prop) :
  oks m (fun x => oks (h (fst x)) Q) -> oks ('(x, _) <- m ;; h x) Q.
Proof. intros H. eapply oks_bind; [exact H|]. intros [x y] K. exact K. Qed.
Lemma addBinary_rep p M nc i S adds : mrep p (M, nc) -> nth_error M i = Some S -> (forall c, In c (map fst adds) -> has S c) ->
  increasing Z.ltb (map fst adds) ->
  oks (addBinary chk tw add p i adds) (fun p' => mrep p' (put_at M i (added adds S), nc)).
Proof.
  intros R N H I. apply increasing_strong in I. destruct (mid_start R N) as (A & r & k & B & <- & H0 & Md & Pt). pose proof H0 as [Ia [Lv _]].
  unfold addBinary, numNonZeros. rewrite (row_size chk Ia). cbn [bind].
  rewrite (row_values fv chk Ia). cbn [bind]. rewrite (row_entries chk Ia). cbn [bind].
  apply bind_fst. eapply oks_mono.
  - pose (search := fun cur c => n <- sub_ix (length r) cur ;; j <- find Z.ltb (vals (rows p)) (length (flat fv A) + cur) n c ;; Ok (j + cur)).
    erewrite (fold_ext (g := fun st cv => '(b, cur) <- st ;; pos <- search cur (fst cv) ;;
                             b' <- add_at tw add b (length (flat fv A) + pos) (snd cv) ;; Ok (b', pos + 1))).
    2:{ intros [[b cur]| |] cv; cbn [bind]; auto. unfold search. destruct (sub_ix (length r) cur); cbn [bind]; auto.
        destruct (find _ _ _ _ _); reflexivity. }
    eapply sorted_ok; [|exact Md|exact H|exact I|intros e c []].
    intros f c w g cur K Ip Le. unfold search. pose proof (f_equal (@length Z) K) as Kl. rewrite !map_length, app_length in Kl. simpl in Kl.
    rewrite sub_ix_ok by lia. cbn [bind]. rewrite (find_key Lv K Ip Le). cbn [bind]. f_equal. lia.
  - intros [b x] En. apply oks_ok. eapply ends_rep; eauto.
Qed.
Lemma addLinear_rep p M nc i S adds : mrep p (M, nc) -> nth_error M i = Some S -> (forall c, In c (map fst adds) -> has S c) ->
  increasing Z.ltb (map fst adds) ->
  oks (addLinear chk tw add p i adds) (fun p' => mrep p' (put_at M i (added adds S), nc)).
Proof.
  intros R N H I. apply increasing_strong in I. destruct (mid_start R N) as (A & r & k & B & <- & H0 & Md & Pt). pose proof H0 as [Ia [Lv _]].
  unfold addLinear, numNonZeros. rewrite (row_size chk Ia). cbn [bind].
  rewrite (row_values fv chk Ia). cbn [bind]. rewrite (row_entries chk Ia). cbn [bind].
  apply bind_fst. eapply oks_mono.
  - eapply sorted_ok with (search := fun cur c => linear (vals (rows p)) (length (flat fv A)) (length r - cur) cur cur c); [|exact Md|exact H|exact I|intros e c []].
    intros f c w g cur K Ip Le. eapply linear_key with (n := length f - cur); eauto. lia.
  - intros [b x] En. apply oks_ok. eapply ends_rep; eauto.
Qed.
Lemma addToRow_rep p M nc i S adds : mrep p (M, nc) -> nth_error M i = Some S -> (forall c, In c (map fst adds) -> has S c) ->
  increasing Z.ltb (map fst adds) ->
  oks (addToRow chk tw add p i adds) (fun p' => mrep p' (put_at M i (added adds S), nc)).
Proof.
  intros R N H I. destruct (mid_start R N) as (A & r & k & B & <- & [Ia _] & _).
  unfold addToRow, numNonZeros. rewrite (row_size chk Ia). cbn [bind].
  destruct ((length adds <? length r / 4) && (64 <? length r))%bool; [apply addBinary_rep|apply addLinear_rep]; auto.
Qed.

(** ** All entries *)
Definition fill v (x : row) : row := (map (fun e => (fst e, v)) (fst x), snd x).
Lemma sk_fill v L : same_keys L (map (fill v) L).
Proof. induction L as [|[r k] L IH]; constructor; auto. simpl. rewrite map_map. split; auto. Qed.
Lemma rowset_fill v es k S : rowset (es, k) S -> rowset (fill v (es, k)) (filled v S).
Proof.
  intros [I R]. split.
  - cbn [fill fst] in *. apply (proj1 (map_key_incr Z.ltb fv _)). apply (proj2 (map_key_incr Z.ltb fv _)) in I. rewrite map_map. exact I.
  - cbn [fill fst] in *. intros [c u]. unfold filled, has. cbn [fst snd]. rewrite in_map_iff. split.
    + intros ([c' u'] & E & H). injection E as <- <-. split; auto. exists u'. apply R. exact H.
    + intros [[w H] ->]. exists (c, w). split; auto. apply R. exact H.
Qed.
Lemma fill_rows v L M : Forall2 rowset L M -> Forall2 rowset (map (fill v) L) (map (filled v) M).
Proof. induction 1 as [|[r k] S L M R F IH]; constructor; auto. apply rowset_fill. exact R. Qed.
Lemma mranged_filled nc v M : mranged nc M -> mranged nc (map (filled v) M).
Proof. intros G S c I [w H]. apply in_map_iff in I. destruct I as (S0 & <- & I). destruct H as [H _]. exact (G S0 c I H). Qed.

Lemma assigns_ok v n : forall b pc m s i0 i, mem tw b (pc ++ m ++ s) -> Forall live m -> length m = n -> i0 + i = length pc ->
  oks (for_up n (fun i b => assign tw b (i0 + i) v) i b) (fun b' => mem tw b' (pc ++ LWs (repeat v n) ++ s)).
Proof.
  induction n as [|n IH]; intros b pc m s i0 i M Lm Ln E; destruct m as [|c m]; try discriminate; simpl.
  - apply oks_ok. exact M.
  - inversion Lm; subst. eapply oks_bind; [eapply assign_ok with (p := pc); [exact M|exact E|assumption]|].
    intros b' M'. eapply oks_mono; [eapply IH with (pc := pc ++ [LV v]) (m := m) (s := s)|].
    + eapply mem_cast; [exact M'|]. rewrite <- app_assoc. reflexivity.
    + assumption.
    + simpl in Ln. lia.
    + rewrite app_length. simpl. lia.
    + intros b2 M2. eapply mem_cast; [exact M2|]. rewrite <- app_assoc. reflexivity.
Qed.
(** A loop over the rows. *)
Lemma each_row_ok (f : aoa -> nat -> outcome aoa) (g : row -> row) L a : iok a L ->
  (forall a A x B, aok a (map g A ++ x :: B) -> oks (f a (length A)) (fun a' => aok a' (map g A ++ g x :: B))) ->
  aok a L -> oks (each_row f a) (fun a' => aok a' (map g L)).
Proof.
  intros [N _] Hf H. unfold each_row. rewrite N.
  eapply oks_mono; [apply (@oks_for_up aoa (fun i a' => exists A B, L = A ++ B /\ length A = i /\ aok a' (map g A ++ B)))|].
  - exists [], L. auto.
  - intros i a' Hi (A & B & -> & <- & Ha). destruct B as [|x B]; [rewrite app_nil_r in Hi; lia|].
    eapply oks_mono; [apply Hf; exact Ha|]. intros a2 H2. exists (A ++ [x]), B. rewrite <- app_assoc. split; auto.
    rewrite app_length. split; [simpl; lia|]. rewrite map_app, <- app_assoc. exact H2.
  - intros a' (A & B & E & Ln & Ha). assert (B = []). { apply (f_equal (@length _)) in E. rewrite app_length in E. destruct B; auto. simpl in *. lia. }
    subst B. rewrite app_nil_r in *. subst. exact Ha.
Qed.
Lemma set_row_any v a A x B : aok a (A ++ x :: B) -> oks (set_row chk tw v a (length A)) (fun a' => aok a' (A ++ fill v x :: B)).
Proof.
  intros H. pose proof H as [Ia [Lv Le]]. destruct x as [r k]. unfold set_row.
  rewrite (row_size chk Ia). cbn [bind]. rewrite (row_entries chk Ia). cbn [bind]. destruct (lay_row (Le eq_refl)) as [q M].
  eapply oks_bind.
  - eapply assigns_ok; [exact M| | |].
    + rewrite Forall_map. apply Forall_forall. discriminate.
    + rewrite !map_length. reflexivity.
    + rewrite !flat_length. lia.
  - intros b M'. apply oks_ok. eapply new_entries; [exact H|  |].
    + apply sk_app; [apply sk_refl|]. constructor; [|apply sk_refl]. cbn. rewrite map_map. auto.
    + eapply row_lay with (q := q). eapply mem_cast; [exact M'|]. unfold fill. cbn [fst snd]. rewrite !map_map. cbn [snd].
      do 3 f_equal. clear. induction r; simpl; f_equal; auto.
Qed.
Lemma set_row_ok v a A x B : aok a (map (fill v) A ++ x :: B) -> oks (set_row chk tw v a (length A)) (fun a' => aok a' (map (fill v) A ++ fill v x :: B)).
Proof. intros H. rewrite <- (map_length (fill v) A). apply set_row_any. exact H. Qed.
Lemma setValues_rep p M nc v : mrep p (M, nc) -> oks (crs_setValues chk tw p v) (fun p' => mrep p' (map (filled v) M, nc)).
Proof.
  intros ((L & H & F) & E & G). cbn [fst snd] in *. unfold crs_setValues, on_rows. eapply oks_bind.
  - eapply each_row_ok with (g := fill v); [exact (proj1 H)|apply set_row_ok|exact H].
  - intros a' H'. apply oks_ok. split; [|split; [exact E|apply mranged_filled; exact G]]. eexists. split; [exact H'|]. apply fill_rows. exact F.
Qed.
Lemma mem_any n l (z : W) : length l = n -> Forall (fun c => c = LN \/ c = LV z \/ c = LM) l -> mem true (repeat (Obj z) n) l.
Proof.
  intros <- F. unfold mem. induction F as [|c l H F IH]; simpl; constructor; auto. destruct H as [H|[H|H]]; subst c; simpl; auto.
Qed.
Lemma zero_rep p M nc z : tw = true -> mrep p (M, nc) -> oks (crs_zero tw p z) (fun p' => mrep p' (map (filled z) M, nc)).
Proof.
  intros T ((L & H & F) & E & G). cbn [fst snd] in *. unfold crs_zero. rewrite T at 1. apply oks_ok.
  split; [|split; [exact E|apply mranged_filled; exact G]]. exists (map (fill z) L). split; [|apply fill_rows; exact F]. cbn [rows fst].
  eapply new_entries; [exact H|apply sk_fill|]. destruct H as [_ [_ Le]]. destruct (Le eq_refl) as [q M0]. exists q.
  rewrite T. apply mem_any.
  - apply mem_length in M0. rewrite M0, !app_length, !flat_length. f_equal.
    assert (Et : forall L, total (map (fill z) L) = total L).
    { intros L0. induction L0 as [|[r k] L0 IH]; simpl; auto. rewrite IH. unfold wid. simpl. rewrite map_length. reflexivity. }
    apply Et.
  - apply Forall_app. split; [|apply Forall_forall; intros c Hc; apply repeat_spec in Hc; auto].
    clear. induction L as [|[r k] L IH]; simpl; [constructor|]. apply Forall_app. split; auto. unfold cells, fill. cbn [fst snd].
    apply Forall_app. split; [|apply Forall_forall; intros c Hc; apply repeat_spec in Hc; auto].
    rewrite !map_map. rewrite Forall_map. apply Forall_forall. simpl. auto.
Qed.
End CRS.
