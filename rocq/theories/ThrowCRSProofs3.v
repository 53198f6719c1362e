(** Rows of a matrix as lists and as maps; the methods that may throw do what those of CRS.v do until something throws. *)
From Coq Require Import List Arith ZArith Lia Bool Sorting.Sorted.
From Verif Require Import Base BaseProofs Mem MemProofs ArrayManipProofs BufferManip BufferManipProofs
  Sorted SortedSpec SortedProofs SortedProofs2 SortedProofs3 SortedArraySpec AoA AoASpec AoALayout AoAProofs AoAProofs2 AoAProofs4
  AoS AoSSpec SetsProofs SetsProofs2 AoSProofs Sparsity SparsitySpec SparsityProofs CRS CRSSpec CRSProofs CRSProofs2 CRSProofs3.
From Verif Require Import Throw ThrowProofs ThrowAoASpec ThrowAoAProofs5 ThrowSorted ThrowSortedSpec ThrowSets ThrowSetsProofs ThrowCRS ThrowCRSSpec.
From Verif Require ArrayManip CRSProofs4 ThrowSetsProofs3.
Import ListNotations.
Set Implicit Arguments.
Unset Strict Implicit.

Section Lists.
Variable W : Type.
Variable chk : bool.
Variable add : W -> W -> W.
Variable zero : W.
Variable cmax : Z.
Notation P := (Z * W)%type.
Notation fv := (@fst Z W).
Notation fw := (@snd Z W).
Notation matrix := (pattern W).
Notation line := (list P).
Notation aok := (@aok P Z W fv fw true false true).
Notation rowset := (@rowset P Z fv Z.ltb).
Notation mrep := (@CRSProofs2.mrep W false).
Notation row_map := (row_map W).
Notation pincr l := (StronglySorted (fun x y => (fst x <? fst y)%Z = true) l).
Notation pincrs M := (Forall (fun l => pincr l) M).
Notation eqv := (Forall2 (fun S S' : row_map => forall x, S x <-> S' x)).
Notation pins := (pinsert Z.ltb Z.eqb fv).
Implicit Types M : list line.

Definition lrep (p : matrix) (st : lines W) : Prop := exists L, aok (rows p) L /\ map fst L = fst st /\ pincrs (fst st) /\
  ncols p = snd st /\ CRSProofs2.mranged (snd st) (as_maps (fst st)).

Lemma lrep_mrep p M nc : lrep p (M, nc) -> mrep p (as_maps M, nc).
Proof.
  intros (L & H & EM & F & E & G). cbn [fst snd] in *. split; [|split; auto]. exists L. split; auto. clear H G. subst M.
  induction L as [|x L IH]; simpl in *; inversion F; subst; constructor; auto. split; [auto|]. tauto.
Qed.
Lemma line_unique (l l' : line) : pincr l -> pincr l' -> (forall x, In x l <-> In x l') -> l = l'.
Proof.
  intros I. revert l'. induction I as [|x l I IH F]; intros l' I' H.
  - destruct l' as [|y l']; auto. destruct (proj2 (H y)); simpl; auto.
  - destruct l' as [|y l']; [destruct (proj1 (H x)); simpl; auto|]. apply StronglySorted_inv in I'. destruct I' as [I' F'].
    rewrite Forall_forall in F, F'.
    assert (x = y) as ->.
    { destruct (proj1 (H x) (or_introl eq_refl)) as [E|Hx]; auto. destruct (proj2 (H y) (or_introl eq_refl)) as [E|Hy]; auto.
      specialize (F _ Hy). specialize (F' _ Hx). cbn in *. apply Z.ltb_lt in F, F'. lia. }
    f_equal. apply IH; auto. intros z. split; intros Hz.
    + destruct (proj1 (H z) (or_intror Hz)) as [<-|]; auto. specialize (F _ Hz). cbn in F. rewrite Z.ltb_irrefl in F. discriminate.
    + destruct (proj2 (H z) (or_intror Hz)) as [<-|]; auto. specialize (F' _ Hz). cbn in F'. rewrite Z.ltb_irrefl in F'. discriminate.
Qed.
Lemma mrep_lrep p N nc M : mrep p (N, nc) -> eqv N (as_maps M) -> pincrs M -> lrep p (M, nc).
Proof.
  intros ((L & H & R) & E & G) Q F. cbn [fst snd] in *. exists L. split; auto. split; [|split; [auto|split; [auto|]]].
  - cbn [fst]. clear H G E. revert N M R Q F. induction L as [|x L IH]; intros N M R Q F; inversion R; subst; destruct M as [|l M]; inversion Q; subst; auto.
    inversion F; subst. simpl. f_equal; eauto. destruct x as [r k]. match goal with H : rowset _ _ |- _ => destruct H as [I Hr] end. cbn [fst] in *.
    apply line_unique; auto. intros x. rewrite Hr. auto.
  - intros S x HS [w Hw]. cbn [fst snd] in *. clear -Q G HS Hw.
    induction Q as [|S0 S1 N M1 HQ Q IH]; [destruct HS|]. destruct HS as [<-|HS].
    + apply (G S0); [left; auto|]. exists w. apply HQ. exact Hw.
    + apply IH; auto. intros S' y H'. apply G. right. exact H'.
Qed.

Lemma eqv_refl (N : list row_map) : eqv N N.
Proof. induction N; constructor; auto. tauto. Qed.
Lemma put_incrs M i l : pincrs M -> pincr l -> pincrs (put_at M i l).
Proof.
  intros F I. unfold put_at. rewrite Forall_forall in *. intros x Hx. apply in_app_or in Hx. destruct Hx as [Hx|[<-|Hx]]; auto.
  - apply F. eapply ThrowSetsProofs3.firstn_In; eauto.
  - apply F. eapply ThrowSetsProofs3.skipn_In; eauto.
Qed.
Lemma on_elem_step M M' i (f : line -> line) (g : row_map -> row_map) : pincrs M -> on_elem M i f = Some M' ->
  (forall l, pincr l -> In l M -> pincr (f l) /\ forall x, In x (f l) <-> g (fun x => In x l) x) ->
  exists N, on_elem (as_maps M) i g = Some N /\ eqv N (as_maps M') /\ pincrs M'.
Proof.
  intros F E H. unfold on_elem in *. unfold as_maps at 1. rewrite nth_error_map. destruct (nth_error M i) as [l|] eqn:Ni; [|discriminate].
  injection E as <-. pose proof (nth_error_In _ _ Ni) as HI. assert (I : pincr l) by (rewrite Forall_forall in F; apply F; auto).
  destruct (H l I HI) as [I' S]. cbn [option_map]. eexists. split; [reflexivity|]. split; [|apply put_incrs; auto].
  unfold as_maps. rewrite <- ThrowSetsProofs3.put_map. unfold put_at. apply Forall2_app; [apply eqv_refl|].
  constructor; [|apply eqv_refl]. intros x. rewrite S. tauto.
Qed.

Lemma put_new_pins e l : pincr l -> put_new e l = pins e l.
Proof.
  intros I. unfold put_new. induction I as [|x l I IH F]; [reflexivity|]. cbn [holds_col existsb pinsert before behind filter].
  destruct (Z.ltb_spec (fst x) (fst e)) as [L|L].
  - replace (fst x =? fst e)%Z with false by (symmetry; apply Z.eqb_neq; lia).
    replace (fst e <? fst x)%Z with false by (symmetry; apply Z.ltb_ge; lia). cbn [orb].
    unfold holds_col, before, behind in IH. rewrite <- IH. destruct (existsb _ l); reflexivity.
  - destruct (Z.eqb_spec (fst x) (fst e)) as [Q|Q]; [reflexivity|]. cbn [orb].
    assert (G : forall y, In y l -> (fst e < fst y)%Z).
    { intros y Hy. rewrite Forall_forall in F. specialize (F y Hy). apply Z.ltb_lt in F. lia. }
    replace (existsb (fun y => (fst y =? fst e)%Z) l) with false.
    2:{ symmetry. apply not_true_iff_false. rewrite existsb_exists. intros (y & Hy & Ey). apply Z.eqb_eq in Ey. specialize (G y Hy). lia. }
    replace (filter (fun y => (fst y <? fst e)%Z) l) with (@nil P).
    2:{ clear -G. induction l as [|y l IH]; auto. simpl. replace (fst y <? fst e)%Z with false.
        - apply IH. intros. apply G. simpl. auto.
        - symmetry. apply Z.ltb_ge. specialize (G y (or_introl eq_refl)). lia. }
    replace (fst e <? fst x)%Z with true by (symmetry; apply Z.ltb_lt; lia).
    replace (filter (fun y => (fst e <? fst y)%Z) l) with l; [reflexivity|].
    clear -G. induction l as [|y l IH]; auto. simpl. replace (fst e <? fst y)%Z with true.
    + f_equal. apply IH. intros. apply G. simpl. auto.
    + symmetry. apply Z.ltb_lt. apply G. simpl. auto.
Qed.
Lemma pins_incr w l : pincr l -> pincr (pins w l).
Proof. intros I. apply (pinsert_incr zorder); exact I. Qed.
Lemma puts_pins ws l : pincr l -> fold_right (@put_new W) l ws = fold_right pins l ws /\ pincr (fold_right pins l ws).
Proof.
  intros I. induction ws as [|w ws [IH J]]; simpl; [auto|]. rewrite IH, put_new_pins by exact J. split; auto. apply pins_incr. exact J.
Qed.

Lemma plus_in adds l e : In e (plus_all add adds l) <-> added add adds (fun x => In x l) e.
Proof.
  unfold plus_all, added. rewrite in_map_iff. split.
  - intros ([c w] & <- & H). exists w. split; auto.
  - intros (w & H & E). exists (fst e, w). split; auto. cbn [fst snd]. rewrite <- E. destruct e; reflexivity.
Qed.
Lemma are_in (v : W) (l : line) (e : P) : In e (all_are v l) <-> filled v (fun x => In x l) e.
Proof.
  unfold all_are, filled, has. rewrite in_map_iff. split.
  - intros ([c w] & <- & H). split; auto. exists w. exact H.
  - intros ([w H] & E). exists (fst e, w). split; auto. cbn [fst]. rewrite <- E. destruct e; reflexivity.
Qed.
Lemma same_cols_incr (f : P -> P) l : (forall e, fst (f e) = fst e) -> pincr l -> pincr (map f l).
Proof.
  intros H I. induction I as [|x l I IH F]; simpl; constructor; auto. apply Forall_forall. intros y Hy. apply in_map_iff in Hy.
  destruct Hy as (z & <- & Hz). rewrite !H. rewrite Forall_forall in F. apply F. exact Hz.
Qed.
Lemma map_eqv (f : line -> line) (g : row_map -> row_map) M : (forall l e, In e (f l) <-> g (fun x => In x l) e) -> eqv (map g (as_maps M)) (as_maps (map f M)).
Proof. intros H. unfold as_maps. rewrite !map_map. induction M; constructor; auto. intros e. symmetry. apply H. Qed.
Lemma map_incrs (f : line -> line) M : (forall l, pincr l -> pincr (f l)) -> pincrs M -> pincrs (map f M).
Proof. intros H F. induction F; simpl; constructor; auto. Qed.
Lemma filter_incr g (l : line) : pincr l -> pincr (filter g l).
Proof.
  induction 1 as [|x l I IH F]; simpl; [constructor|]. destruct (g x); auto. constructor; auto. rewrite Forall_forall in *.
  intros y Hy. apply filter_In in Hy. apply F. tauto.
Qed.
Lemma without_in cols (l : line) (e : P) : In e (without cols l) <-> In e l /\ ~ In (fst e) cols.
Proof.
  unfold without. rewrite filter_In. split; intros [H N]; split; auto.
  - intros Hc. apply negb_true_iff in N. apply not_true_iff_false in N. apply N. apply existsb_exists. exists (fst e). split; auto. apply Z.eqb_refl.
  - apply negb_true_iff, not_true_iff_false. rewrite existsb_exists. intros (c & Hc & Ec). apply Z.eqb_eq in Ec. congruence.
Qed.

Lemma rows_after_step tw c M nc M' nc' : pincrs M -> callowed tw c (as_maps M, nc) -> rows_after add zero cmax c (M, nc) = Some (M', nc') ->
  exists N, mat_step add zero cmax c (as_maps M, nc) = Some (N, nc') /\ eqv N (as_maps M') /\ pincrs M'.
Proof.
  intros F Al E. assert (LM : length (as_maps M) = length M) by apply map_length.
  assert (OE : forall i f g (A : Type), (forall l, pincr l -> In l M -> pincr (f l) /\ forall x, In x (f l) <-> g (fun x => In x l) x) ->
    match on_elem M i f with Some M' => Some (M', nc) | None => None end = Some (M', nc') ->
    exists N, match on_elem (as_maps M) i g with Some M' => Some (M', nc) | None => None end = Some (N, nc') /\ eqv N (as_maps M') /\ pincrs M').
  { intros i f g _ H E0. destruct (on_elem M i f) as [M1|] eqn:E1; [|discriminate]. injection E0 as <- <-.
    destruct (@on_elem_step M M1 i f g F E1 H) as (N & -> & Q & I). exists N. auto. }
  assert (RS : forall l, pincr l -> rowset (l, 0) (fun x => In x l)) by (intros l I; split; [exact I|simpl; tauto]).
  destruct c as [nr nc1 cap|nc1 caps|n|i n|i c| |i v w|i vs|i v|i vs|v| |i adds|i adds]; cbn [rows_after] in E; cbn [mat_step].
  - destruct (cmax <? Z.of_nat nc1 - 1)%Z; [discriminate|]. injection E as <- <-. eexists. split; [reflexivity|]. split.
    + unfold resized_to. rewrite LM. unfold as_maps. rewrite map_app, <- firstn_map. apply Forall2_app; [apply eqv_refl|].
      generalize (nr - length M). intros k. induction k; constructor; auto. intros x. unfold none. simpl. tauto.
    + unfold resized_to. apply Forall_app. split.
      * rewrite Forall_forall in *. intros x Hx. apply F. eapply ThrowSetsProofs3.firstn_In; eauto.
      * apply Forall_forall. intros x Hx. apply repeat_spec in Hx. subst. constructor.
  - destruct (cmax <? Z.of_nat nc1 - 1)%Z; [discriminate|]. injection E as <- <-. eexists. split; [reflexivity|]. split.
    + unfold as_maps. rewrite map_map. clear. induction caps; simpl; constructor; auto. intros x. unfold none. simpl. tauto.
    + apply Forall_forall. intros x Hx. apply in_map_iff in Hx. destruct Hx as (? & <- & _). constructor.
  - injection E as <- <-. eexists. split; [reflexivity|]. split; [apply eqv_refl|auto].
  - eapply (OE i _ (fun S => S) unit); [|exact E]. intros l I _. split; [exact I|tauto].
  - eapply (OE i _ (smallest (fun y x => (fst y < fst x)%Z) c) unit); [|exact E]. intros l I _.
    destruct (rowset_firstn zorder 0 c (RS l I)) as [I1 I2]. split; [exact I1|]. intros x. cbn [fst] in I2. rewrite I2. apply CRSProofs4.smallest_ltb; [exact add|exact zero].
  - injection E as <- <-. eexists. split; [reflexivity|]. split; [apply eqv_refl|auto].
  - eapply (OE i _ (fun S e => S e \/ (e = (v, w) /\ ~ has S v)) unit); [|exact E]. intros l I _. rewrite put_new_pins by exact I.
    split; [apply pins_incr; exact I|]. intros x. assert (Iw : pincr [(v, w)]) by repeat constructor.
    pose proof (proj2 (rowset_ins 0 (RS l I) Iw) x) as Q. cbn [fst fold_right] in Q. rewrite Q. unfold inserted. cbn [In]. split.
    + intros [?|[[<-|[]] ?]]; auto.
    + intros [?|[-> ?]]; auto.
  - eapply (OE i _ (fun S e => S e \/ (In e vs /\ ~ has S (fst e))) unit); [|exact E]. intros l I _. destruct (puts_pins vs I) as [-> J].
    split; [exact J|]. intros x. destruct Al as [Al _]. apply keys_incr in Al. exact (proj2 (rowset_ins 0 (RS l I) Al) x).
  - eapply (OE i _ (fun S e => S e /\ fst e <> v) unit); [|exact E]. intros l I _. split; [apply filter_incr; exact I|]. intros x. rewrite without_in. cbn [In].
    intuition congruence.
  - eapply (OE i _ (fun S e => S e /\ ~ In (fst e) vs) unit); [|exact E]. intros l I _. split; [apply filter_incr; exact I|]. intros x. apply without_in.
  - injection E as <- <-. eexists. split; [reflexivity|]. split; [apply map_eqv, are_in|]. apply map_incrs; auto. intros l. apply same_cols_incr. reflexivity.
  - injection E as <- <-. eexists. split; [reflexivity|]. split; [apply map_eqv, are_in|]. apply map_incrs; auto. intros l. apply same_cols_incr. reflexivity.
  - eapply (OE i _ (added add adds) unit); [|exact E]. intros l I _. split; [apply same_cols_incr; auto|]. intros x. apply plus_in.
  - eapply (OE i _ (added add adds) unit); [|exact E]. intros l I _. split; [apply same_cols_incr; auto|]. intros x. apply plus_in.
Qed.
Lemma rows_after_none c M nc : rows_after add zero cmax c (M, nc) = None <-> mat_step add zero cmax c (as_maps M, nc) = None.
Proof.
  assert (OE : forall i f g, match on_elem M i f with Some M' => Some (M', nc) | None => None end = None <->
     match on_elem (as_maps M) i g with Some M' => Some (M', nc) | None => None end = None).
  { intros i f g. unfold on_elem, as_maps. rewrite nth_error_map. destruct (nth_error M i); simpl; split; intros; congruence. }
  destruct c; cbn [rows_after mat_step]; try apply OE; try (destruct (cmax <? _)%Z); split; intros; congruence.
Qed.
Lemma cstep_lrep c p M nc st' : lrep p (M, nc) -> callowed false c (as_maps M, nc) -> rows_after add zero cmax c (M, nc) = Some st' ->
  okb false (cstep chk false BMalloc cmax add zero c p) (fun r => lrep (fst r) st').
Proof.
  intros R Al E. destruct st' as [M' nc']. pose proof R as (_ & _ & _ & F & _). cbn [fst snd] in F.
  destruct (rows_after_step F Al E) as (N & EN & Q & F').
  pose proof (@CRSProofs4.cstep_ok W chk false add zero cmax c p _ (lrep_mrep R) Al) as S. rewrite EN in S.
  eapply okb_mono; [exact S|]. intros r [R' _]. eapply mrep_lrep; eauto.
Qed.
End Lists.

Section Sim.
Variable W : Type.
Variable chk tw : bool.
Variable cmax : Z.
Variable add : W -> W -> W.
Variable zero : W.
Notation matrix := (pattern W).

Lemma sim_assign n (b : buf W) i v : sim (x_assign tw n b i v) (assign tw b i v).
Proof. unfold x_assign. destruct tw; [apply sim_lift|]. destruct n; [exact I|apply sim_lift]. Qed.
Lemma sim_emplace n (b : buf W) e s i v : sim (x_am_emplace chk tw n b e s i v) (ArrayManip.emplace chk tw b e s i v).
Proof.
  unfold x_am_emplace, ArrayManip.emplace. apply sim_bind; [apply sim_lift|]. intros. apply sim_bind; [apply sim_lift|]. intros. apply sim_construct.
Qed.
Lemma sim_event nnz ws n ev (x : aoa Z W * nat) : sim (x_crs_ev chk tw nnz ws n ev x) (crs_ev chk tw nnz ws ev x).
Proof.
  destruct x as [a e]. unfold x_crs_ev, crs_ev. apply sim_bind; [|intros; reflexivity]. apply sim_left. cbn [fst snd].
  destruct ev; cbn [x_entry_event entry_event]; try apply sim_lift;
    repeat (apply sim_bind; [apply sim_lift|]; intros); first [apply sim_construct|apply sim_emplace].
Qed.
Lemma sim_with {R} (p : matrix) (x : xout (aoa Z W * R) (aoa Z W)) m : sim x m -> sim (x_with_rows p x) (with_rows p m).
Proof.
  intros H. unfold x_with_rows, with_rows. eapply sim_eq; [|apply sim_bind with (k' := fun r => Ok (back p (fst r), snd r)); [apply sim_left; exact H|]].
  - destruct m as [[]| |]; reflexivity.
  - reflexivity.
Qed.
Lemma sim_insertNonZero n (p : matrix) row col w : sim (x_crs_insertNonZero chk tw n p row col w) (crs_insertNonZero chk tw BMalloc p row col w).
Proof.
  unfold x_crs_insertNonZero, crs_insertNonZero. apply sim_bind; [apply sim_lift|]. intros n1 nnz. apply sim_bind; [apply sim_lift|]. intros n2 c.
  apply sim_with. apply (@sim_insertImpl Z W chk true Z.ltb Z.eqb (crs_cb chk tw BMalloc p row nnz c [w]) (x_crs_cb chk tw p row nnz c [w]) (fun _ _ => eq_refl)).
  intros. apply sim_event.
Qed.
Lemma sim_insertNonZeros n (p : matrix) row cols ws : sim (x_crs_insertNonZeros chk tw n p row cols ws) (crs_insertNonZeros chk tw BMalloc p row cols ws).
Proof.
  unfold x_crs_insertNonZeros, crs_insertNonZeros. apply sim_bind; [apply sim_lift|]. intros n1 nnz. apply sim_bind; [apply sim_lift|]. intros n2 c.
  apply sim_with. apply (@sim_insertsImpl Z W chk true Z.ltb Z.eqb (crs_cb chk tw BMalloc p row nnz c ws) (x_crs_cb chk tw p row nnz c ws) (fun _ _ => eq_refl)).
  intros. apply sim_event.
Qed.
Lemma sim_v_insertNonZeros n (p : matrix) row cols ws : sim (x_crs_v_insertNonZeros chk tw n p row cols ws) (crs_v_insertNonZeros chk tw p row cols ws).
Proof.
  unfold x_crs_v_insertNonZeros, crs_v_insertNonZeros. apply sim_bind; [apply sim_lift|]. intros n1 nnz. apply sim_bind; [apply sim_lift|]. intros n2 c.
  apply sim_bind; [apply sim_lift|]. intros n3 e.
  apply sim_with. apply (@sim_insertsImpl Z W chk true Z.ltb Z.eqb (crs_view_cb chk tw row nnz c ws) (x_crs_view_cb chk tw row nnz c ws) (fun _ _ => eq_refl)).
  intros. apply sim_event.
Qed.
Lemma sim_setValues n (p : matrix) v : sim (x_crs_setValues chk tw n p v) (crs_setValues chk tw p v).
Proof.
  unfold x_crs_setValues, crs_setValues, on_rows, each_row. apply sim_bind; [|intros; reflexivity]. apply sim_left. apply sim_for. intros i n1 a.
  unfold x_set_row, set_row. apply sim_bind; [apply sim_lift|]. intros. apply sim_bind; [apply sim_lift|]. intros. apply sim_bind; [|intros; reflexivity].
  apply sim_left, sim_for. intros. apply sim_assign.
Qed.

Lemma fold_stuck {S C} (g : S -> C -> outcome S) l : fold_left (fun st c => s <- st ;; g s c) l Abort = Abort /\
  forall f, fold_left (fun st c => s <- st ;; g s c) l (Fault f) = Fault f.
Proof. induction l; simpl; auto. Qed.
Lemma sim_each {S C X} (f : nat -> S -> C -> xout S X) (g : S -> C -> outcome S) l : (forall n s c, sim (f n s c) (g s c)) ->
  forall n s, sim (x_each f l n s) (fold_left (fun st c => s <- st ;; g s c) l (Ok s)).
Proof.
  intros H. induction l as [|c l IH]; intros n s; cbn [x_each fold_left]; [reflexivity|].
  specialize (H n s c). cbn [bind]. destruct (f n s c) as [n1 s1|[] t|ff]; cbn [xbind sim] in *; auto.
  - rewrite H. apply IH.
  - rewrite H. apply fold_stuck.
  - rewrite H. apply (proj2 (fold_stuck g l)).
Qed.
(** The loops of the additions with the position of the last one. *)
Definition add_step (seek : nat -> Z -> outcome nat) (entries : nat) (st : buf W * nat) (cv : Z * W) : outcome (buf W * nat) :=
  pos <- seek (snd st) (fst cv) ;; b <- add_at tw add (fst st) (entries + pos) (snd cv) ;; Ok (b, pos + 1).
Definition add_with (seek : nat -> nat -> nat -> Z -> outcome nat) (p : matrix) (row : nat) (adds : list (Z * W)) : outcome matrix :=
  nnz <- numNonZeros chk p row ;;
  columns <- getSetValues chk (rows p) row ;;
  entries <- getEntries chk (rows p) row ;;
  r <- fold_left (fun st cv => s <- st ;; add_step (seek nnz columns) entries s cv) adds (Ok (ents (rows p), 0)) ;;
  Ok (mkSP (set_ents (fst r) (rows p)) (ncols p)).
Notation seekB p := (fun nnz columns cur c => m <- sub_ix nnz cur ;; k <- find Z.ltb (vals (rows p)) (columns + cur) m c ;; Ok (k + cur)).
Notation seekL p := (fun nnz columns cur c => linear (vals (rows p)) columns (nnz - cur) cur cur c).
Notation seekU p := (fun nnz columns (_ : nat) c => find Z.ltb (vals (rows p)) columns nnz c).
Lemma fold_eq {S C} (f g : S -> C -> S) l : (forall s c, f s c = g s c) -> forall s, fold_left f l s = fold_left g l s.
Proof. intros H. induction l as [|c l IH]; intros s; simpl; auto. rewrite H. apply IH. Qed.
Lemma addBinary_with (p : matrix) row adds : addBinary chk tw add p row adds = add_with (seekB p) p row adds.
Proof.
  unfold addBinary, add_with. destruct (numNonZeros chk p row) as [nnz| |]; cbn [bind]; auto. destruct (getSetValues chk (rows p) row) as [col| |]; cbn [bind]; auto.
  destruct (getEntries chk (rows p) row) as [e| |]; cbn [bind]; auto.
  match goal with |- bind (fold_left ?f adds ?s) _ = bind (fold_left ?g adds ?s) _ => replace (fold_left f adds s) with (fold_left g adds s) end.
  2:{ apply fold_eq. intros [[b cur]| |] c; cbn [bind]; auto. unfold add_step. cbn [fst snd]. destruct (sub_ix nnz cur) as [m| |]; cbn [bind]; auto.
      destruct (find _ _ _ m (fst c)) as [k| |]; reflexivity. }
  destruct (fold_left _ adds _) as [[]| |]; reflexivity.
Qed.
Lemma addLinear_with (p : matrix) row adds : addLinear chk tw add p row adds = add_with (seekL p) p row adds.
Proof.
  unfold addLinear, add_with. destruct (numNonZeros chk p row) as [nnz| |]; cbn [bind]; auto. destruct (getSetValues chk (rows p) row) as [col| |]; cbn [bind]; auto.
  destruct (getEntries chk (rows p) row) as [e| |]; cbn [bind]; auto.
  match goal with |- bind (fold_left ?f adds ?s) _ = bind (fold_left ?g adds ?s) _ => replace (fold_left f adds s) with (fold_left g adds s) end.
  2:{ apply fold_eq. intros [[b cur]| |] c; cbn [bind]; auto. }
  destruct (fold_left _ adds _) as [[]| |]; reflexivity.
Qed.
Lemma addUnsorted_with (p : matrix) row adds : addUnsorted chk tw add p row adds = add_with (seekU p) p row adds.
Proof.
  unfold addUnsorted, add_with. destruct (numNonZeros chk p row) as [nnz| |]; cbn [bind]; auto. destruct (getSetValues chk (rows p) row) as [col| |]; cbn [bind]; auto.
  destruct (getEntries chk (rows p) row) as [e| |]; cbn [bind]; auto.
  assert (G : forall l b k, fold_left (fun st cv => b <- st ;; pos <- find Z.ltb (vals (rows p)) col nnz (fst cv) ;; add_at tw add b (e + pos) (snd cv)) l (Ok b) =
    (r <- fold_left (fun st cv => s <- st ;; add_step (seekU p nnz col) e s cv) l (Ok (b, k)) ;; Ok (fst r))).
  { induction l as [|cv l IH]; intros b k; cbn [fold_left]; [reflexivity|]. unfold add_step at 2. cbn [bind fst snd].
    destruct (find _ _ _ _ (fst cv)) as [pos| |]; cbn [bind].
    - destruct (add_at tw add b (e + pos) (snd cv)) as [b'| |]; cbn [bind]; [apply IH| |].
      + rewrite (proj1 (fold_stuck (fun s cv => pos <- find Z.ltb (vals (rows p)) col nnz (fst cv) ;; add_at tw add s (e + pos) (snd cv)) l)).
        rewrite (proj1 (fold_stuck (add_step (seekU p nnz col) e) l)). reflexivity.
      + rewrite (proj2 (fold_stuck (fun s cv => pos <- find Z.ltb (vals (rows p)) col nnz (fst cv) ;; add_at tw add s (e + pos) (snd cv)) l)).
        rewrite (proj2 (fold_stuck (add_step (seekU p nnz col) e) l)). reflexivity.
    - rewrite (proj1 (fold_stuck (fun s cv => pos <- find Z.ltb (vals (rows p)) col nnz (fst cv) ;; add_at tw add s (e + pos) (snd cv)) l)).
      rewrite (proj1 (fold_stuck (add_step (seekU p nnz col) e) l)). reflexivity.
    - rewrite (proj2 (fold_stuck (fun s cv => pos <- find Z.ltb (vals (rows p)) col nnz (fst cv) ;; add_at tw add s (e + pos) (snd cv)) l)).
      rewrite (proj2 (fold_stuck (add_step (seekU p nnz col) e) l)). reflexivity. }
  rewrite (G adds _ 0). rewrite bind_bind. destruct (fold_left _ adds _) as [[]| |]; reflexivity.
Qed.
Lemma sim_add_with seek n (p : matrix) row adds : sim (x_add_with chk tw add seek n p row adds) (add_with seek p row adds).
Proof.
  unfold x_add_with, add_with. apply sim_bind; [apply sim_lift|]. intros. apply sim_bind; [apply sim_lift|]. intros. apply sim_bind; [apply sim_lift|]. intros.
  apply sim_bind; [|intros; reflexivity]. apply sim_left. unfold x_add_loop. apply sim_each. intros n3 s c. unfold add_step.
  apply sim_bind; [apply sim_lift|]. intros. apply sim_bind; [|intros; reflexivity]. unfold x_add_at, add_at. apply sim_bind; [apply sim_lift|]. intros. apply sim_assign.
Qed.
Lemma sim_quiet (x : xout matrix matrix) m : sim x m -> sim (x_quiet x) (quiet m).
Proof. intros H. unfold x_quiet, quiet. apply sim_bind; auto. reflexivity. Qed.
Lemma sim_cstep n c (p : matrix) : sim (x_cstep chk tw cmax add zero n c p) (cstep chk tw BMalloc cmax add zero c p).
Proof.
  destruct c; cbn [x_cstep cstep]; try apply sim_lift.
  - eapply sim_eq; [|apply sim_bind with (k' := fun r => Ok (fst r, flag (snd r))); [apply sim_insertNonZero|reflexivity]].
    destruct (crs_insertNonZero _ _ _ _ _ _ _) as [[]| |]; reflexivity.
  - apply sim_insertNonZeros.
  - apply sim_quiet, sim_setValues.
  - apply sim_quiet. unfold x_addToRow, addToRow. apply sim_bind; [apply sim_lift|]. intros n1 nnz. destruct (_ && _)%bool.
    + rewrite addBinary_with. apply sim_add_with.
    + rewrite addLinear_with. apply sim_add_with.
  - apply sim_quiet. rewrite addUnsorted_with. apply sim_add_with.
Qed.
End Sim.
