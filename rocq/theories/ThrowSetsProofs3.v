(** Calls and programs on an ArrayOfSets, when elements throw. *)
From Coq Require Import List Arith ZArith Lia Bool Sorting.Sorted.
From Verif Require Import Base BaseProofs Mem MemProofs ArrayManipProofs BufferManip BufferManipProofs Sorted SortedSpec SortedProofs SortedProofs2
  SortedProofs3 SortedArray SortedArraySpec AoA AoASpec AoALayout AoAProofs AoAProofs2 AoS AoSSpec SetsProofs SetsProofs2.
From Verif Require Import Throw ThrowProofs ThrowAoASpec ThrowAoAProofs ThrowAoAProofs2 ThrowSorted ThrowSortedSpec ThrowSortedProofs ThrowSortedProofs2
  ThrowSets ThrowSetsSpec ThrowSetsProofs ThrowSetsProofs2.
From Verif Require AoAProofs3 AoAProofs4 AoSProofs CopyMoveProofs PropAoA ThrowAoAProofs3 ThrowAoAProofs5.
Import ListNotations.
Set Implicit Arguments.
Unset Strict Implicit.

Section Proofs.
Variable V : Type.
Variable chk : bool.
Variable lt eqb : V -> V -> bool.
Variable dflt : V.
Hypothesis T : total_order lt eqb.
Notation incr l := (StronglySorted (fun x y => lt x y = true) l).
Notation incrs M := (Forall (fun l => incr l) M).
Notation aoa := (aoa V unit).
Notation X := (aoa * nat)%type.
Notation rows := (list (list V * nat)).
Notation idv := (fun v : V => v).
Notation fu := (fun _ : V => tt).
Notation aok := (@aok V V unit idv fu false true false).
Notation trep := (@trep V lt).
Notation dtor := (aoa_dtor chk false true false BMalloc).
Notation displays := (PropAoA.displays chk).
Notation left_t := (@left_t V chk lt).
Notation tstep := (tstep chk false true false BMalloc lt eqb dflt).
Notation x_tstep := (x_tstep chk false lt eqb dflt).
Implicit Types a : aoa.
Implicit Types M : list (list V).
Notation eqv := (Forall2 (fun P Q : V -> Prop => forall x, P x <-> Q x)).

Lemma firstn_In {Y} n (l : list Y) x : In x (firstn n l) -> In x l.
Proof. intros H. rewrite <- (firstn_skipn n l). apply in_or_app. auto. Qed.
Lemma skipn_In {Y} n (l : list Y) x : In x (skipn n l) -> In x l.
Proof. intros H. rewrite <- (firstn_skipn n l). apply in_or_app. auto. Qed.
Lemma eqv_refl N : eqv N N.
Proof. induction N; constructor; auto. tauto. Qed.
Lemma put_map {Y Z} (f : Y -> Z) l i y : put_at (map f l) i (f y) = map f (put_at l i y).
Proof. unfold put_at. rewrite map_app, firstn_map, skipn_map. reflexivity. Qed.
Lemma put_eqv N i (P Q : V -> Prop) : (forall x, P x <-> Q x) -> eqv (put_at N i P) (put_at N i Q).
Proof. intros H. unfold put_at. apply Forall2_app; [apply eqv_refl|]. constructor; [exact H|apply eqv_refl]. Qed.
Lemma put_incrs M i l : incrs M -> incr l -> incrs (put_at M i l).
Proof.
  intros F I. unfold put_at. rewrite Forall_forall in *. intros x Hx. apply in_app_or in Hx. destruct Hx as [Hx|[<-|Hx]]; auto.
  - apply F. eapply firstn_In; eauto.
  - apply F. eapply skipn_In; eauto.
Qed.
Lemma firstn_incr l c : incr l -> incr (firstn c l).
Proof.
  intros I. pose proof I as J. rewrite <- (firstn_skipn c l) in J. apply strong_app in J. tauto.
Qed.

Lemma on_elem_step M M' i (f : list V -> list V) (g : (V -> Prop) -> V -> Prop) : incrs M -> on_elem M i f = Some M' ->
  (forall l, incr l -> incr (f l) /\ forall x, In x (f l) <-> g (fun x => In x l) x) ->
  exists N, on_elem (msets M) i g = Some N /\ eqv N (msets M') /\ incrs M'.
Proof.
  intros F E H. unfold on_elem in *. unfold msets at 1. rewrite nth_error_map. destruct (nth_error M i) as [l|] eqn:Ni; [|discriminate].
  injection E as <-. assert (I : incr l) by (rewrite Forall_forall in F; apply F; eapply nth_error_In; eauto).
  destruct (H l I) as [I' S]. cbn [option_map]. eexists. split; [reflexivity|]. split; [|apply put_incrs; auto].
  unfold msets. rewrite <- put_map. apply put_eqv. intros x. rewrite S. tauto.
Qed.

Lemma sets_after_step c M M' : incrs M -> sets_after lt eqb c M = Some M' ->
  exists N, set_step lt c (msets M) = Some N /\ eqv N (msets M') /\ incrs M'.
Proof using T.
  intros F E. assert (CS := @contents_set V lt eqb T).
  assert (LM : length (msets M) = length M) by apply map_length.
  destruct c as [n cap|caps|n|n| |cap|i cap|i|i v|i vs|i v|i vs|i|i c|i c]; unfold sets_after in E; cbn [on_set] in E; cbn [set_step].
  - injection E as <-. eexists. split; [reflexivity|]. split.
    + unfold resized_to. rewrite LM. unfold msets. rewrite map_app, <- firstn_map. apply Forall2_app; [apply eqv_refl|].
      generalize (n - length M). intros k. induction k; constructor; auto. intros x. unfold none. simpl. tauto.
    + unfold resized_to. apply Forall_app. split.
      * rewrite Forall_forall in *. intros x Hx. apply F. eapply firstn_In; eauto.
      * apply Forall_forall. intros x Hx. apply repeat_spec in Hx. subst. constructor.
  - injection E as <-. eexists. split; [reflexivity|]. split.
    + unfold msets. rewrite map_map. induction caps; constructor; auto. intros x. unfold none. simpl. tauto.
    + apply Forall_forall. intros x Hx. apply in_map_iff in Hx. destruct Hx as (? & <- & _). constructor.
  - injection E as <-. eexists. split; [reflexivity|]. split; [apply eqv_refl|auto].
  - injection E as <-. eexists. split; [reflexivity|]. split; [apply eqv_refl|auto].
  - injection E as <-. eexists. split; [reflexivity|]. split; [apply eqv_refl|auto].
  - injection E as <-. eexists. split; [reflexivity|]. split.
    + unfold msets. rewrite map_app. apply Forall2_app; [apply eqv_refl|]. repeat constructor; unfold none; simpl; tauto.
    + apply Forall_app. split; auto. repeat constructor.
  - rewrite LM. destruct (i <=? length M); [|discriminate]. injection E as <-. eexists. split; [reflexivity|]. split.
    + unfold insert_at, msets. rewrite map_app, firstn_map. cbn [map]. rewrite skipn_map. apply Forall2_app; [apply eqv_refl|].
      constructor; [unfold none; simpl; tauto|apply eqv_refl].
    + unfold insert_at. rewrite Forall_forall in *. intros x Hx. apply in_app_or in Hx. destruct Hx as [Hx|[<-|Hx]]; [| constructor|].
      * apply F. eapply firstn_In; eauto.
      * apply F. eapply skipn_In; eauto.
  - rewrite LM. destruct (i <? length M); [|discriminate]. injection E as <-. eexists. split; [reflexivity|]. split.
    + unfold remove_at, msets. rewrite map_app, firstn_map, skipn_map. apply eqv_refl.
    + unfold remove_at. rewrite Forall_forall in *. intros x Hx. apply in_app_or in Hx. destruct Hx as [Hx|Hx]; apply F.
      * eapply firstn_In; eauto.
      * eapply skipn_In; eauto.
  - eapply (@on_elem_step M M' i _ (set_after (SInsert v))); [exact F|exact E|]. intros l I. apply (CS (SInsert v) l I).
  - eapply (@on_elem_step M M' i _ (set_after (SInsertRange vs))); [exact F|exact E|]. intros l I. apply (CS (SInsertRange vs) l I).
  - eapply (@on_elem_step M M' i _ (set_after (SRemove v))); [exact F|exact E|]. intros l I. apply (CS (SRemove v) l I).
  - eapply (@on_elem_step M M' i _ (set_after (SRemoveRange vs))); [exact F|exact E|]. intros l I. apply (CS (SRemoveRange vs) l I).
  - eapply (@on_elem_step M M' i _ (set_after SClear)); [exact F|exact E|]. intros l I. apply (CS SClear l I).
  - eapply (@on_elem_step M M' i _ (smallest (fun y x => lt y x = true) c)); [exact F|exact E|]. intros l I. split; [apply firstn_incr; auto|].
    assert (R : rowset idv lt (l, 0) (fun x => In x l)) by (split; [auto|simpl; tauto]).
    exact (proj2 (rowset_firstn T 0 c R)).
  - eapply (@on_elem_step M M' i _ (fun S => S)); [exact F|exact E|]. intros l I. split; [auto|tauto].
Qed.
Lemma sets_after_none c M : sets_after lt eqb c M = None <-> set_step lt c (msets M) = None.
Proof.
  assert (LM : length (msets M) = length M) by apply map_length.
  assert (OE : forall i f g, on_elem M i f = None <-> on_elem (msets M) i g = None).
  { intros i f g. unfold on_elem, msets. rewrite nth_error_map. destruct (nth_error M i); simpl; split; intros; congruence. }
  destruct c as [n cap|caps|n|n| |cap|i cap|i|i v|i vs|i v|i vs|i|i c|i c]; unfold sets_after; cbn [on_set set_step]; rewrite ?LM; try apply OE;
    try (destruct (i <=? length M)); try (destruct (i <? length M)); split; intros; congruence.
Qed.

Lemma tstep_trep c a M M' : trep a M -> tallowed lt c -> sets_after lt eqb c M = Some M' ->
  okb false (tstep c a) (fun r => trep (fst r) M').
Proof using T.
  intros R Al E. pose proof R as (L & H & EM & F). destruct (sets_after_step F E) as (N & EN & Q & F').
  pose proof (@AoSProofs.tstep_ok V unit fu chk false true lt eqb T dflt c a (msets M) (trep_rep R) Al) as S. rewrite EN in S.
  eapply okb_mono; [exact S|]. intros r [R' _]. eapply (rep_trep T); eauto.
Qed.

Lemma row_split M i l : nth_error M i = Some l -> forall L : rows, map fst L = M -> exists A k B, L = A ++ (l, k) :: B /\ length A = i.
Proof.
  intros N L <-. rewrite nth_error_map in N. destruct (nth_error L i) as [[r k]|] eqn:E; [|discriminate]. simpl in N. injection N as ->.
  apply nth_error_split in E. destruct E as (A & B & -> & Ei). eauto.
Qed.

Lemma inc_room_t a A es k B c : aok a (A ++ (es, k) :: B) ->
  let m := scost eqb c es in
  okb false (cb_inc (aos_cb V unit chk false true false BMalloc (length A)) m (vals a, (a, 0)))
    (inc_post false idv (rx idv fu true false (eq LN) A es (if length es + k <? length es + m then 2 * (length es + m) else length es + k) B) es m).
Proof.
  intros H m. eapply okb_or_l. apply (@grow_inc_ok V V unit idv fu chk false true false (fun m => 2 * m) a A es k B m 0 H).
  - discriminate.
  - intros _. lia.
Qed.

Theorem x_tstep_ok c a M M' n : trep a M -> tallowed lt c -> sets_after lt eqb c M = Some M' ->
  xokb false (x_tstep n c a)
    (fun n' r => n = n' + tcost eqb c M /\ tstep c a = Ok r)
    (fun w t => w = Element /\ n < tcost eqb c M /\ left_t (tleft lt eqb c M n) t M (tgap lt eqb c M n)).
Proof using T.
  intros R Al E.
  assert (PL : tcost eqb c M = 0 -> x_tstep n c a = xlift n a (tstep c a) ->
    xokb false (x_tstep n c a) (fun n' r => n = n' + tcost eqb c M /\ tstep c a = Ok r)
      (fun w t => w = Element /\ n < tcost eqb c M /\ left_t (tleft lt eqb c M n) t M (tgap lt eqb c M n))).
  { intros Z EX. rewrite EX, Z. destruct (tstep_trep R Al E) as [(r & -> & _)|[_ ->]]; [left|right; auto]. cbn. split; [lia|reflexivity]. }
  destruct c as [m cap|caps|m|m| |cap|i cap|i|i v|i vs|i v|i vs|i|i c|i c]; try (apply PL; reflexivity).
  - unfold sets_after in E. cbn [on_set] in E. unfold on_elem in E. destruct (nth_error M i) as [es|] eqn:N; [|discriminate].
    pose proof R as (L & H & EM & F). destruct (row_split N EM) as (A & k & B & -> & <-).
    assert (I : incr es) by (rewrite Forall_forall in F; apply F; eapply nth_error_In; eauto).
    assert (EN : scost eqb (SInsert v) es = length (filter (fun w => negb (present eqb idv es w)) [v])).
    { unfold scost. f_equal. exact (new_missing T es [v]). }
    cbn [x_tstep]. unfold tcost, tleft, tgap. cbn [on_set]. rewrite (nth_error_nth M _ [] N).
    pose proof (@x_ins_ok V chk lt eqb T (aos_cb V unit chk false true false BMalloc (length A)) (fun _ _ => eq_refl) a A es k B v n _ H I
      (inc_room_t (SInsert v) H)) as S.
    destruct S as [S|[_ S]].
    + left. eapply xspec_bind; [eapply xspec_mono; [exact S|intros n' r Y; exact Y|]|].
      * intros w t (-> & Hn & r & t' & -> & Tn). split; [reflexivity|]. split; [exact Hn|].
        rewrite <- EM in F |- *. destruct (torn_left_t chk T I F Hn Tn) as (v' & Nv & Lt). rewrite Nv. exact Lt.
      * intros n' r (-> & Er). cbn [xspec]. split; [reflexivity|]. cbn [AoS.tstep]. unfold insertIntoSet. rewrite Er. destruct r; reflexivity.
    + right. split; [reflexivity|]. unfold x_insertIntoSet. rewrite S. reflexivity.
  - unfold sets_after in E. cbn [on_set] in E. unfold on_elem in E. destruct (nth_error M i) as [es|] eqn:N; [|discriminate].
    pose proof R as (L & H & EM & F). destruct (row_split N EM) as (A & k & B & -> & <-).
    assert (I : incr es) by (rewrite Forall_forall in F; apply F; eapply nth_error_In; eauto).
    cbn in Al. apply increasing_strong in Al.
    cbn [x_tstep]. unfold tcost, tleft, tgap. cbn [on_set]. rewrite (nth_error_nth M _ [] N).
    pose proof (@x_inss_ok V chk lt eqb T (aos_cb V unit chk false true false BMalloc (length A)) (fun _ _ => eq_refl) a A es k B vs n _ H I Al
      (inc_room_t (SInsertRange vs) H)) as S.
    destruct S as [S|[_ S]].
    + left. eapply xspec_mono; [exact S| |].
      * intros n' r (-> & Er). split; [reflexivity|]. exact Er.
      * intros w t (-> & Hn & r & t' & -> & Tn). split; [reflexivity|]. split; [exact Hn|].
        rewrite <- EM in F |- *. destruct (torn_left_t chk T I F Hn Tn) as (v' & Nv & Lt). rewrite Nv. exact Lt.
    + right. split; [reflexivity|]. exact S.
Qed.

Lemma trep_dtor a M : trep a M -> dtor a = Ok tt.
Proof.
  intros (L & H & EM & _). eapply (@AoAProofs4.dtor_ok V unit chk false true fu a M (map (@wid V) L)). exists L. auto.
Qed.

Definition ended (st : state_left) (t : aoa) M : Prop :=
  match st with
  | Usable => trep t M
  | Forgets => dtor t = Fault FLeak /\ displays t M
  | Corrupt => dtor t = Fault FDestroy
  end.
Theorem x_trun_ok h : forall a M M' st, trep a M -> Forall (fun nc => tallowed lt (snd nc)) h -> tfate lt eqb h M = Some (M', st) ->
  okb false (x_trun chk false lt eqb dflt h a) (fun t => ended st t M').
Proof using T.
  induction h as [|[n c] h IH]; intros a M M' st R F E; cbn [tfate x_trun] in *.
  - injection E as <- <-. left. apply oks_ok. exact R.
  - pose proof (Forall_inv F) as Al. cbn [snd] in Al. apply Forall_inv_tail in F.
    destruct (sets_after lt eqb c M) as [M1|] eqn:EM; [|discriminate].
    destruct (x_tstep_ok n R Al EM) as [S|[_ ->]]; [|right; auto].
    destruct (x_tstep n c a) as [n' r|w t|f]; cbn [xspec] in S; [| |contradiction].
    + destruct S as [-> Er]. replace (tcost eqb c M <=? n' + tcost eqb c M) with true in E by (symmetry; apply Nat.leb_le; lia).
      destruct (tstep_trep R Al EM) as [(r' & Er' & R')|[_ Er']]; rewrite Er in Er'; [|discriminate]. injection Er' as <-.
      eapply IH; eauto.
    + destruct S as (-> & Hn & Lt). replace (tcost eqb c M <=? n) with false in E by (symmetry; apply Nat.leb_gt; lia).
      destruct (tleft lt eqb c M n); cbn [ThrowSetsProofs2.left_t] in Lt.
      * rewrite (trep_dtor Lt). eapply IH; eauto.
      * injection E as <- <-. destruct Lt as [D Sh]. rewrite D. left. apply oks_ok. split; auto.
      * injection E as <- <-. destruct Lt as [D _]. rewrite D. left. apply oks_ok. exact D.
Qed.
End Proofs.
