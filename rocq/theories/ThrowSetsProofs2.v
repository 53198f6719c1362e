(** What an exception leaves of an ArrayOfSets. *)
From Coq Require Import List Arith ZArith Lia Bool Sorting.Sorted.
From Verif Require Import Base BaseProofs Mem MemProofs ArrayManipProofs BufferManip BufferManipProofs Sorted SortedSpec SortedProofs SortedProofs2
  SortedProofs3 SortedArray SortedArraySpec AoA AoASpec AoALayout AoAProofs AoAProofs2 AoS AoSSpec SetsProofs SetsProofs2.
From Verif Require Import Throw ThrowProofs ThrowAoASpec ThrowAoAProofs ThrowAoAProofs2 ThrowSorted ThrowSortedSpec ThrowSortedProofs ThrowSortedProofs2
  ThrowSets ThrowSetsSpec ThrowSetsProofs.
From Verif Require AoAProofs3 AoAProofs4 AoSProofs CopyMoveProofs PropAoA ThrowAoAProofs3.
Import ListNotations.
Set Implicit Arguments.
Unset Strict Implicit.

Section Proofs.
Variable V : Type.
Variable chk : bool.
Variable lt eqb : V -> V -> bool.
Variable dflt : V.
Hypothesis T : total_order lt eqb.
Notation incr l := (StronglySorted (fun x y => lt x y = true) l).
Notation aoa := (aoa V unit).
Notation X := (aoa * nat)%type.
Notation row := (list V * nat)%type.
Notation rows := (list row).
Notation idv := (fun v : V => v).
Notation fu := (fun _ : V => tt).
Notation aok := (@aok V V unit idv fu false true false).
Notation iok := (@iok V V unit).
Notation rep := (@rep V V unit idv fu false true false lt).
Notation mem := (@mem V false).
Notation LVs := (map (@LV V)).
Notation damaged := (@damaged V).
Notation dtor := (aoa_dtor chk false true false BMalloc).
Notation displays := (PropAoA.displays chk).
Notation keeps := (ThrowAoAProofs3.keeps chk).
Notation present := (present eqb idv).
Notation missing A l := (filter (fun w => negb (present A w)) l).
Implicit Types a : aoa.
Implicit Types A B L : rows.
Implicit Types M : list (list V).

(** The rows are the increasing lists [M]. *)
Definition trep a M : Prop := exists L, aok a L /\ map fst L = M /\ Forall (fun l => incr l) M.
Definition msets M : list (V -> Prop) := map (fun l x => In x l) M.

Lemma trep_rep a M : trep a M -> rep a (msets M).
Proof.
  intros (L & H & <- & F). exists L. split; auto. clear H. induction L as [|x L IH]; simpl in *; inversion F; subst; constructor; auto.
  split; [auto|]. tauto.
Qed.
Lemma rep_trep a S M : rep a S -> Forall2 (fun P Q => forall x : V, P x <-> Q x) S (msets M) -> Forall (fun l => incr l) M -> trep a M.
Proof using T.
  intros (L & H & R) E F. exists L. split; auto. split; auto. clear H. revert S M R E F.
  induction L as [|x L IH]; intros S M R E F; inversion R; subst; destruct M as [|l M]; inversion E; subst; auto.
  inversion F; subst. simpl. f_equal; eauto. destruct x as [r k]. match goal with H : rowset _ _ _ _ |- _ => destruct H as [I Hr] end. cbn [fst] in *.
  eapply (CopyMoveProofs.incr_unique (lt := lt) (eqb := eqb)); eauto. intros x. rewrite Hr. auto.
Qed.

Definition left_t (st : state_left) (t : aoa) M (g : nat * nat) : Prop :=
  match st with
  | Usable => trep t M
  | Forgets => dtor t = Fault FLeak /\ displays t M
  | Corrupt => dtor t = Fault FDestroy /\ keeps t M g
  end.

(** What surrounds row [es] once there is room for [m] more elements in it. *)
Definition near A es B (m : nat) (p s : list (lcell V)) (x : X) : Prop :=
  exists C q, p = flat idv A /\ s = repeat LN (C - length es - m) ++ flat idv B ++ repeat LN q /\
    length es + m <= C /\ iok (fst x) (A ++ (es, C - length es) :: B).

Lemma inc_near A es B C m r :
  inc_post false idv (rx (V := V) (W := unit) idv fu true false (eq LN) A es C B) es m r -> room (near A es B m) es m r.
Proof.
  destruct r as [[b x] base]. intros (p & s & -> & M & q & -> & -> & L1 & L2 & I & _).
  rewrite app_length, map_length, repeat_length in *. rewrite map_id in M. cbn.
  exists (flat idv A), (repeat LN (C - (length es + m)) ++ flat idv B ++ repeat LN q). split; [reflexivity|]. split.
  - exists C, q. split; [reflexivity|]. split; [f_equal; f_equal; lia|]. split; [lia|]. exact I.
  - exact M.
Qed.

Lemma torn_left_t c A es k B r n t : incr es -> Forall (fun l => incr l) (map fst (A ++ (es, k) :: B)) -> n < scost eqb c es ->
  torn lt (near A es B (scost eqb c es)) es (asked eqb c es) r n t ->
  exists v, nth_error (rev (asked eqb c es)) n = Some v /\
  left_t (sleft lt eqb c es n) (put_back t) (map fst (A ++ (es, k) :: B)) (length A, number_less lt es v).
Proof using T.
  intros I FI Hn. unfold torn. destruct r as [[b1 x1] base].
  intros (Ex & v & A1 & A2 & C & p & s & Nv & El & L1 & L2 & _ & (Cap & q & -> & -> & LC1 & IK) & LC & D).
  exists v. split; [exact Nv|]. unfold sleft. rewrite Nv. unfold scost in *.
  assert (EN : number_less lt es v = length A1).
  { rewrite El. apply number_less_split; auto. eapply Forall_impl; [|exact L2]. intros e He. apply (lt_le (to_swo T)). auto. }
  assert (EM : map fst (A ++ (es, k) :: B) = map fst (A ++ (es, Cap - length es) :: B)) by (rewrite !map_app; reflexivity).
  assert (IKt : iok (put_back t) (A ++ (es, Cap - length es) :: B)) by (unfold put_back; rewrite Ex; exact IK).
  rewrite EN. rewrite EM in *. remember (length (asked eqb c es)) as m eqn:Em.
  assert (DM : forall Y, length Y = Cap -> mem (fst t) (flat idv A ++ Y ++ flat idv B ++ repeat LN q) ->
    damaged (put_back t) A es (Cap - length es) B Y).
  { intros Y LY MY. split; [exact IKt|]. split; [lia|]. exists q. exact MY. }
  assert (G : exists Y, damaged (put_back t) A es (Cap - length es) B Y /\
     ((es <> [] /\ Y = LVs A1 ++ repeat LN (m - n) ++ LVs C ++ repeat LN (Cap - length es - m)) \/
      (es = [] /\ Y = LVs C ++ repeat LN (m - n) ++ repeat LN (Cap - length es - m)))).
  { assert (Les : length es = length A1 + length A2) by (rewrite El; apply app_length).
    destruct D as [[NE M]|[E0 M]]; eexists; (split; [|first [left; split; [exact NE|reflexivity]|right; split; [exact E0|reflexivity]]]);
      apply DM; try (rewrite !app_length, !map_length, !repeat_length; lia).
    - eapply mem_cast; [exact M|]. rewrite <- !app_assoc. reflexivity.
    - rewrite !app_length, !map_length, !repeat_length. rewrite E0 in *. simpl in *. lia.
    - eapply mem_cast; [exact M|]. rewrite <- !app_assoc. reflexivity. }
  destruct G as (Y & DY & [(NE & ->)|(-> & ->)]).
  - destruct (Nat.ltb_spec (length A1) (length es)) as [Hlt|Hge]; cbn [left_t].
    + replace (m - n) with (S (m - n - 1)) in DY by lia. cbn [repeat app] in DY. split.
      * eapply dtor_corrupt; [exact DY|apply live_LVs|rewrite map_length; exact Hlt].
      * eapply ThrowAoAProofs3.damaged_keeps; [exact DY|exact El].
    + assert (A2 = []) as -> by (destruct A2; auto; rewrite El, app_length in Hge; simpl in Hge; lia).
      rewrite app_nil_r in El. subst A1. destruct (Nat.eqb_spec n 0) as [N0|N0]; cbn [left_t].
      * destruct C; [|simpl in LC; lia]. exists (A ++ (es, Cap - length es) :: B). split; [|auto].
        apply damaged_aok. subst n. cbn [map app] in DY. rewrite Nat.sub_0_r, <- repeat_app_add in DY.
        replace (m + (Cap - length es - m)) with (Cap - length es) in DY by lia. exact DY.
      * destruct C as [|e C]; [simpl in LC; lia|]. cbn [map app] in DY. split.
        -- eapply dtor_forgets; [exact DY|apply live_LVs|len].
        -- rewrite map_app. exact (damaged_displays chk DY eq_refl).
  - symmetry in El. apply app_eq_nil in El. destruct El as [-> ->]. cbn [length Nat.ltb Nat.leb].
    destruct (Nat.eqb_spec n 0) as [N0|N0]; cbn [left_t].
    + destruct C; [|simpl in LC; lia]. exists (A ++ ([], Cap - @length V []) :: B). split; [|auto].
      apply damaged_aok. subst n. cbn [map app length] in *. rewrite !Nat.sub_0_r in *. rewrite <- repeat_app_add in DY.
      replace (m + (Cap - m)) with Cap in DY by lia. exact DY.
    + destruct C as [|e C]; [simpl in LC; lia|]. cbn [map app] in DY. split.
      * eapply (@dtor_forgets V chk _ A [] _ B [] []); [exact DY|constructor|reflexivity].
      * rewrite map_app. eapply (damaged_displays chk (r' := [])); [exact DY|reflexivity].
Qed.

(** The two insertions, for callbacks whose notifications do nothing. *)
Section Impl.
Variable cb : callbacks V X.
Hypothesis EV : forall e x, cb_ev cb e x = Ok x.

Lemma x_ins_ok a A es k B v n C : aok a (A ++ (es, k) :: B) -> incr es ->
  okb false (cb_inc cb (scost eqb (SInsert v) es) (vals a, (a, 0))) (inc_post false idv (rx idv fu true false (eq LN) A es C B) es (scost eqb (SInsert v) es)) ->
  xokb false (x_insertIntoSetImpl chk false lt eqb (still cb) n a 0 (length A) v)
    (fun n' r => n = n' + scost eqb (SInsert v) es /\ insertIntoSetImpl chk false lt eqb cb a 0 (length A) v = Ok r)
    (fun w t => w = Element /\ n < scost eqb (SInsert v) es /\ exists r t', t = put_back t' /\
       torn lt (near A es B (scost eqb (SInsert v) es)) es (asked eqb (SInsert v) es) r n t').
Proof using T EV.
  intros H I Hi. pose proof H as [IK _]. destruct (AoAProofs3.aok_row H) as [q M].
  assert (EQ : asked eqb (SInsert v) es = missing es [v]) by exact (new_missing T es [v]).
  assert (EN : scost eqb (SInsert v) es = if present es v then 0 else 1).
  { unfold scost. rewrite EQ. simpl. destruct (present es v); reflexivity. }
  unfold x_insertIntoSetImpl. rewrite (row_check chk IK). cbn [bind]. rewrite (row_size chk IK). cbn [bind].
  rewrite (row_values idv chk IK). cbn [bind xlift xbind fst snd].
  destruct Hi as [(r & Er & Pr)|[_ Er]].
  - left. pose proof (inc_near Pr) as RM. unfold scost in Er, RM. rewrite EQ in Er, RM.
    eapply xspec_bind; [apply xspec_left; eapply xspec_mono; [eapply (@x_insert1_spec V X chk lt eqb T cb EV (near A es B (length (missing es [v])))); eauto| |]|].
    + intros n' r' E. exact E.
    + intros w t (-> & Hn & Ht). unfold scost. rewrite EQ. split; [reflexivity|]. split; [exact Hn|]. exists r, t. split; auto.
    + intros n' [[b x] ok] (-> & E). unfold scost. rewrite EQ.
      assert (OK : oks (insertIntoSetImpl chk false lt eqb cb a 0 (length A) v) (fun _ => True)).
      { apply okb_true. eapply okb_mono; [eapply (@AoSProofs.ins_plain V unit fu chk false true lt eqb T cb EV a A es k B v C true H I)|auto].
        cbn zeta. rewrite <- EN. unfold scost. rewrite EQ. left. exists r. rewrite <- EQ. unfold scost in Pr. rewrite EQ. split; [exact Er|rewrite <- EQ; exact Pr]. }
      destruct OK as (r' & E' & _). unfold insertIntoSetImpl in E' |- *. rewrite (row_check chk IK) in E' |- *. cbn [bind] in E' |- *.
      rewrite (row_size chk IK) in E' |- *. cbn [bind] in E' |- *. rewrite (row_values idv chk IK) in E' |- *. cbn [bind] in E' |- *.
      rewrite E in E' |- *. cbn [bind fst snd] in E' |- *. rewrite E'. cbn [xlift xspec]. auto.
  - right. split; [reflexivity|]. rewrite (@x_insert1_fault V X chk false lt eqb T (still cb) n (vals a) (a, 0) (flat idv A) (repeat LN k ++ flat idv B ++ repeat LN q) es v (length (flat idv A)) (length es) FMove); auto.
    cbn [still xcb_inc]. rewrite <- EQ. exact Er.
Qed.
Lemma x_inss_ok a A es k B vs n C : aok a (A ++ (es, k) :: B) -> incr es -> incr vs ->
  okb false (cb_inc cb (scost eqb (SInsertRange vs) es) (vals a, (a, 0))) (inc_post false idv (rx idv fu true false (eq LN) A es C B) es (scost eqb (SInsertRange vs) es)) ->
  xokb false (x_insertsIntoSetImpl chk false lt eqb (still cb) n a 0 (length A) vs)
    (fun n' r => n = n' + scost eqb (SInsertRange vs) es /\ insertsIntoSetImpl chk false lt eqb cb a 0 (length A) vs = Ok r)
    (fun w t => w = Element /\ n < scost eqb (SInsertRange vs) es /\ exists r t', t = put_back t' /\
       torn lt (near A es B (scost eqb (SInsertRange vs) es)) es (asked eqb (SInsertRange vs) es) r n t').
Proof using T EV.
  intros H I Iv Hi. pose proof H as [IK _]. destruct (AoAProofs3.aok_row H) as [q M].
  assert (EQ : asked eqb (SInsertRange vs) es = missing es vs) by exact (new_missing T es vs).
  unfold x_insertsIntoSetImpl. rewrite (row_check chk IK). cbn [bind]. rewrite (row_size chk IK). cbn [bind].
  rewrite (row_values idv chk IK). cbn [bind xlift xbind fst snd].
  destruct Hi as [(r & Er & Pr)|[_ Er]].
  - left. pose proof (inc_near Pr) as RM. unfold scost in Er, RM. rewrite EQ in Er, RM.
    eapply xspec_bind; [apply xspec_left; eapply xspec_mono; [eapply (@x_inserts_spec V X chk lt eqb T cb EV (near A es B (length (missing es vs)))); eauto| |]|].
    + intros n' r' E. exact E.
    + intros w t (-> & Hn & Ht). unfold scost. rewrite EQ. split; [reflexivity|]. split; [exact Hn|]. exists r, t. split; auto.
    + intros n' [[b x] ok] (-> & E). unfold scost. rewrite EQ.
      assert (OK : oks (insertsIntoSetImpl chk false lt eqb cb a 0 (length A) vs) (fun _ => True)).
      { apply okb_true. eapply okb_mono; [eapply (@AoSProofs.inss_plain V unit fu chk false true lt eqb T cb EV a A es k B vs C true H I Iv)|auto].
        cbn zeta. unfold absent. left. exists r. unfold scost in Pr. rewrite EQ in Pr. split; [exact Er|exact Pr]. }
      destruct OK as (r' & E' & _). unfold insertsIntoSetImpl in E' |- *. rewrite (row_check chk IK) in E' |- *. cbn [bind] in E' |- *.
      rewrite (row_size chk IK) in E' |- *. cbn [bind] in E' |- *. rewrite (row_values idv chk IK) in E' |- *. cbn [bind] in E' |- *.
      rewrite E in E' |- *. cbn [bind fst snd] in E' |- *. rewrite E'. cbn [xlift xspec]. auto.
  - right. split; [reflexivity|]. rewrite (@x_inserts_fault V X chk false lt eqb T (still cb) n (vals a) (a, 0) (flat idv A) (repeat LN k ++ flat idv B ++ repeat LN q) es vs (length (flat idv A)) (length es) FMove); auto.
    cbn [still xcb_inc]. rewrite <- EQ. exact Er.
Qed.
End Impl.
End Proofs.
