(** Exceptions inside the insertions of sortedArrayManipulation, for T with throwing constructors and callbacks whose
    notifications do nothing. *)
From Coq Require Import List Arith ZArith Lia Bool Sorting.Sorted.
From Verif Require Import Base BaseProofs Mem MemProofs BufferManip Sorted SortedSpec SortedProofs SortedProofs2 SortedProofs3
  Throw ThrowProofs ThrowSorted.
From Verif Require ArrayManip ArrayManipProofs.
Import ListNotations.
Set Implicit Arguments.
Unset Strict Implicit.

Section Ops.
Variable V X : Type.
Variable chk : bool.
Variable lt eqb : V -> V -> bool.
Hypothesis T : total_order lt eqb.
Variable cb : callbacks V X.
Hypothesis EV : forall ev x, cb_ev cb ev x = Ok x.
Let W := to_swo T.
Notation mem := (@mem V false).
Notation LVs := (map (@LV V)).
Notation id := (fun v : V => v).
Notation incr l := (StronglySorted (fun x y => lt x y = true) l).
Notation less A v := (Forall (fun e => lt e v = true) A).
Notation more B v := (Forall (fun e => lt v e = true) B).
Notation present := (present eqb id).
Notation missing A l := (filter (fun w => negb (present A w)) l).

Lemma find_in b p s A v base size : mem b (p ++ LVs A ++ s) -> incr A -> base = length p -> size = length A ->
  exists A1 A2, A = A1 ++ A2 /\ less A1 v /\ Forall (fun e => lt e v = false) A2 /\
    find lt b base size v = Ok (length A1) /\
    (if length A1 =? size then Ok false else y <- rd b (base + length A1) ;; Ok (eqb y v)) = Ok (present A v) /\
    (present A v = false -> more A2 v).
Proof using T.
  intros M I -> ->. destruct (psplit (key := id) T v I) as (A1 & A2 & -> & LA & GA).
  assert (M' : mem b (p ++ LVs (map id (A1 ++ A2)) ++ s)) by (rewrite map_id; exact M).
  exists A1, A2. split; [reflexivity|]. split; [exact LA|]. split; [exact GA|]. split; [|split].
  - eapply (@pfind V V false lt id); eauto. apply app_length.
  - eapply (@check_present V V false lt eqb id T); eauto. apply app_length.
  - intros Pr. rewrite (present_app eqb id A1 A2 v), (present_less (key := id) T LA) in Pr. simpl in Pr.
    clear -T Pr GA. induction GA as [|e B H GB IH]; constructor.
    + simpl in Pr. apply orb_false_iff in Pr. apply (ge_neq T); tauto.
    + simpl in Pr. apply orb_false_iff in Pr. tauto.
Qed.

Lemma x_insert_loop_spec : forall rws n b x p s A C nLeft,
  incr (rev rws) -> incr (A ++ C) -> (forall w c, In w rws -> In c C -> lt w c = true) ->
  length (missing A rws) = nLeft ->
  mem b (p ++ LVs A ++ repeat LN nLeft ++ LVs C ++ s) ->
  xspec (x_insert_loop chk false lt eqb (still cb) n b x (length p) (length A) nLeft rws)
    (fun n' r => n = n' + nLeft /\ insert_loop chk false lt eqb cb b x (length p) (length A) nLeft rws = Ok r)
    (fun w t => w = Element /\ n < nLeft /\ snd t = x /\ exists v A1 A2 C', nth_error (missing A rws) n = Some v /\
       A = A1 ++ A2 /\ less A1 v /\ more A2 v /\ length C' = length A2 + n + length C /\
       mem (fst t) (p ++ LVs A1 ++ repeat LN (nLeft - n) ++ LVs C' ++ s)).
Proof.
  induction rws as [|w rws IH]; intros n b x p s A C nLeft Iw I LC Len M.
  - simpl in Len. subst nLeft. simpl. split; auto.
  - simpl in Iw. apply strong_app in Iw. destruct Iw as (Iw & _ & Lw).
    pose proof I as I'. apply strong_app in I'. destruct I' as (IA & IC & LAC).
    destruct (@find_in b p (repeat LN nLeft ++ LVs C ++ s) A w (length p) (length A) M IA eq_refl eq_refl)
      as (A1 & A2 & EA & LA & GA & Ef & Ep & MA).
    cbn [x_insert_loop insert_loop]. rewrite Ef. cbn [xlift xbind bind]. rewrite Ep. cbn [xlift xbind bind].
    simpl filter in Len |- *. destruct (present A w) eqn:Pr; cbn [negb] in Len |- *.
    + apply IH; auto. intros. apply LC; simpl; auto.
    + specialize (MA eq_refl). simpl in Len. destruct nLeft as [|nLeft]; [lia|]. injection Len as Len.
      destruct (@ArrayManipProofs.shiftUp_ok V chk false b p A1 A2 (S nLeft) (LVs C ++ s) (length p) (length A) (length A1)) as (b1 & E1 & M1).
      * eapply mem_cast; [exact M|]. rewrite EA, map_app. lapp. auto.
      * reflexivity.
      * reflexivity.
      * subst A; len.
      * rewrite E1. cbn [xlift xbind bind]. unfold sub_ix.
        replace (1 <=? length p + length A1 + S nLeft) with true by (symmetry; apply Nat.leb_le; lia). cbn [xlift xbind bind].
        eapply xspec_bind; [apply xspec_left; eapply xspec_mono|].
        -- apply (@x_construct_spec V b1 (p ++ LVs A1 ++ repeat LN nLeft) LN (LVs A2 ++ LVs C ++ s) (length p + length A1 + S nLeft - 1) n w).
           ++ eapply mem_cast; [exact M1|]. rewrite repeat_snoc. lapp. auto.
           ++ len.
           ++ simpl; auto.
        -- intros n' b' H. exact H.
        -- intros why t (-> & -> & ->). split; [reflexivity|]. split; [lia|]. split; [reflexivity|].
           exists w, A1, A2, (A2 ++ C). split; [reflexivity|]. split; [exact EA|]. split; [exact LA|]. split; [exact MA|].
           split; [rewrite app_length; lia|]. cbn [fst]. eapply mem_cast; [exact M1|]. rewrite map_app, Nat.sub_0_r. lapp. auto.
        -- intros n' b2 (-> & E2 & M2). cbn [still xcb_ev xleft xbind]. rewrite E2. cbn [bind]. rewrite EV. cbn [bind].
           replace (S nLeft - 1) with nLeft by lia.
           assert (EP : missing A1 rws = missing A rws).
           { apply filter_ext_in. intros w' Hw'. f_equal. rewrite EA, (present_app eqb id A1 A2 w').
             replace (present A2 w') with false; [rewrite orb_false_r; reflexivity|]. symmetry.
             assert (L' : lt w' w = true) by (apply Lw; simpl; auto; apply in_rev in Hw'; auto).
             clear -T MA L'. induction MA as [|e B H MB IH]; simpl; auto. rewrite IH, orb_false_r.
             apply (lt_neq' T). apply (trans (to_swo T) L' H). }
           eapply xspec_mono; [apply (IH n' b2 x p s A1 (w :: A2 ++ C) nLeft)| |].
           ++ exact Iw.
           ++ rewrite EA in I. rewrite <- app_assoc in I. apply strong_app in I. destruct I as (I1 & I2 & I3).
              apply strong_app. split; [exact I1|]. split.
              ** constructor; auto. apply Forall_app. split; auto. apply Forall_forall. intros c Hc. apply LC; simpl; auto.
              ** intros a c Ha [<-|Hc]; auto. rewrite Forall_forall in LA. apply LA. auto.
           ++ intros w' c Hw' [<-|Hc]; [apply Lw; simpl; auto; apply in_rev in Hw'; auto|].
              assert (lt w c = true).
              { apply in_app_or in Hc. destruct Hc as [Hc|Hc]; [rewrite Forall_forall in MA; auto|apply LC; simpl; auto]. }
              eapply (trans W); eauto. apply Lw; simpl; auto. apply in_rev in Hw'; auto.
           ++ rewrite EP. exact Len.
           ++ eapply mem_cast; [exact M2|]. simpl. rewrite map_app. lapp. auto.
           ++ intros n2 r (-> & Er). split; [lia|]. exact Er.
           ++ intros why t (-> & Hn & Ex & v & B1 & B2 & C' & Nv & EB & L1 & L2 & LC' & M').
              split; [reflexivity|]. split; [lia|]. split; [exact Ex|]. exists v, B1, (B2 ++ A2), C'.
              assert (Lv : lt v w = true).
              { apply nth_error_In in Nv. apply filter_In in Nv. destruct Nv as [Nv _]. apply Lw; simpl; auto. apply in_rev in Nv. auto. }
              split; [rewrite Nat.add_1_r; simpl; rewrite <- EP; exact Nv|]. split; [rewrite EA, EB; lapp; auto|].
              split; [exact L1|]. split; [apply Forall_app; split; auto; eapply Forall_impl; [|exact MA]; intros e He; eapply (trans W); eauto|].
              split; [rewrite LC'; simpl; rewrite !app_length; lia|]. eapply mem_cast; [exact M'|]. replace (S nLeft - (n' + 1)) with (nLeft - n') by lia. auto.
Qed.

Lemma x_set_loop_spec : forall vs n b x p s k,
  mem b (p ++ repeat LN (length vs) ++ s) -> forall base, base + k = length p ->
  xspec (x_set_loop false (still cb) n b x base k vs)
    (fun n' r => n = n' + length vs /\ set_loop false cb b x base k vs = Ok r)
    (fun w t => w = Element /\ n < length vs /\ snd t = x /\
       mem (fst t) (p ++ LVs (firstn n vs) ++ repeat LN (length vs - n) ++ s)).
Proof.
  induction vs as [|v vs IH]; intros n b x p s k M base Eb; cbn [x_set_loop set_loop length].
  - simpl. auto.
  - simpl in M. eapply xspec_bind; [apply xspec_left; eapply xspec_mono|].
    + apply (@x_construct_spec V b p LN (repeat LN (length vs) ++ s) (base + k) n v M Eb). simpl; auto.
    + intros n' b' H. exact H.
    + intros w t (-> & -> & ->). split; [reflexivity|]. split; [lia|]. split; [reflexivity|]. exact M.
    + intros n' b2 (-> & E2 & M2). cbn [still xcb_ev xleft xbind]. rewrite E2. cbn [bind]. rewrite EV. cbn [bind].
      eapply xspec_mono; [apply (IH n' b2 x (p ++ [LV v]) s (k + 1)) with (base := base)| |].
      * eapply mem_cast; [exact M2|]. lapp. auto.
      * rewrite app_length. simpl. lia.
      * intros n2 r (-> & Er). split; [lia|]. exact Er.
      * intros w t (-> & Hn & Ex & M'). split; [reflexivity|]. split; [lia|]. split; [exact Ex|]. eapply mem_cast; [exact M'|].
        replace (n' + 1) with (S n') by lia. simpl. lapp. auto.
Qed.

(** What incrementSize provides: room for [m] elements at the end of the range; [Q] tells what is around it. *)
Variable Q : list (lcell V) -> list (lcell V) -> X -> Prop.
Definition room (l : list V) (m : nat) (r : buf V * X * nat) : Prop :=
  let '(b', x', base') := r in exists p' s', base' = length p' /\ Q p' s' x' /\ mem b' (p' ++ LVs l ++ repeat LN m ++ s').

(** An exception leaves the elements up to the place of the value that threw, a gap, and the others behind it; an empty
    range is filled from the front. *)
Definition torn (l news : list V) (r : buf V * X * nat) (n : nat) (t : buf V * X) : Prop :=
  let '(b1, x1, base) := r in snd t = x1 /\ exists v A1 A2 C p s, nth_error (rev news) n = Some v /\
    l = A1 ++ A2 /\ less A1 v /\ more A2 v /\ base = length p /\
    Q p s x1 /\ length C = length A2 + n /\
    ((l <> [] /\ mem (fst t) (p ++ LVs A1 ++ repeat LN (length news - n) ++ LVs C ++ s)) \/
     (l = [] /\ mem (fst t) (p ++ LVs C ++ repeat LN (length news - n) ++ s))).

Lemma missing_one l v : missing l [v] = if present l v then [] else [v].
Proof. simpl. destruct (present l v); reflexivity. Qed.

Lemma x_insert1_spec n b x p s l v base size r : mem b (p ++ LVs l ++ s) -> incr l -> base = length p -> size = length l ->
  let news := missing l [v] in
  cb_inc cb (length news) (b, x) = Ok r -> room l (length news) r ->
  xspec (x_insert1 chk false lt eqb (still cb) n b x base size v)
    (fun n' r' => n = n' + length news /\ insert chk false lt eqb cb b x base size v = Ok r')
    (fun w t => w = Element /\ n < length news /\ torn l news r n t).
Proof using T EV.
  intros M I Eb Es news Ei Hr.
  destruct (@find_in b p s l v base size M I Eb Es) as (A1 & A2 & EA & LA & GA & _ & Ep & MA).
  assert (M0 : mem b (p ++ LVs (map id (A1 ++ A2)) ++ s)) by (rewrite map_id, <- EA; exact M).
  assert (Epos : insert_pos lt b base size v = Ok (length A1)).
  { eapply (@insert_pos_ok V V false lt eqb id T); eauto; [rewrite <- EA; exact I|rewrite Es, EA; apply app_length]. }
  unfold x_insert1, insert. rewrite Epos. cbn [xlift xbind bind]. rewrite Ep. cbn [xlift xbind bind].
  unfold news in *. rewrite missing_one in *. destruct (present l v) eqn:Pr.
  - cbn [length still xcb_inc] in *. rewrite Ei. destruct r as [[b' x'] base']. cbn. split; [lia|reflexivity].
  - specialize (MA eq_refl). cbn [length still xcb_inc] in *. rewrite Ei. cbn [xlift xbind bind]. destruct r as [[b1 x1] base1].
    destruct Hr as (p1 & s1 & E1 & HQ & M1). subst base1. unfold x_am_emplace, ArrayManip.emplace, ArrayManip.check_insert_bounds.
    rewrite !check_if_ok by (apply Nat.ltb_ge; rewrite Es, EA, app_length; lia). cbn [xlift xbind bind].
    destruct (@ArrayManipProofs.shiftUp_ok V chk false b1 p1 A1 A2 1 s1 (length p1) size (length A1)) as (b2 & E2 & M2).
    + eapply mem_cast; [exact M1|]. rewrite EA, map_app. lapp. auto.
    + reflexivity.
    + reflexivity.
    + rewrite Es, EA. apply app_length.
    + rewrite E2. cbn [xlift xbind bind].
      eapply xspec_bind; [apply xspec_left; eapply xspec_mono|].
      * apply (@x_construct_spec V b2 (p1 ++ LVs A1) LN (LVs A2 ++ s1) (length p1 + length A1) n v).
        -- eapply mem_cast; [exact M2|]. simpl. lapp. auto.
        -- len.
        -- simpl; auto.
      * intros n' b' H. exact H.
      * intros w t (-> & -> & ->). split; [reflexivity|]. split; [lia|]. cbn [torn]. split; [reflexivity|].
        destruct l as [|l0 l1].
        -- symmetry in EA. apply app_eq_nil in EA. destruct EA as [-> ->]. exists v, [], [], [], p1, s1.
           split; [reflexivity|]. split; [reflexivity|]. split; [constructor|]. split; [constructor|]. split; [reflexivity|].
           split; [exact HQ|]. split; [reflexivity|]. right. split; [reflexivity|]. exact M2.
        -- exists v, A1, A2, A2, p1, s1. split; [reflexivity|]. split; [exact EA|]. split; [exact LA|]. split; [exact MA|].
           split; [reflexivity|]. split; [exact HQ|]. split; [lia|]. left. split; [discriminate|]. exact M2.
      * intros n' b3 (-> & E3 & M3). cbn [still xcb_ev xleft xbind]. rewrite E3. cbn [bind]. rewrite EV. cbn [bind xspec]. auto.
Qed.

Lemma missing_rev l ws : missing l (rev ws) = rev (missing l ws).
Proof. induction ws as [|w ws IH]; simpl; auto. rewrite filter_app, IH. simpl. destruct (present l w); simpl; rewrite ?app_nil_r; auto. Qed.
Lemma missing_nil ws : missing [] ws = ws.
Proof. induction ws as [|w ws IH]; [reflexivity|]. simpl. f_equal. exact IH. Qed.

Lemma x_inserts_spec n b x p s l vs base size r : mem b (p ++ LVs l ++ s) -> incr l -> incr vs -> base = length p -> size = length l ->
  let news := missing l vs in
  cb_inc cb (length news) (b, x) = Ok r -> room l (length news) r ->
  xspec (x_inserts chk false lt eqb (still cb) n b x base size vs)
    (fun n' r' => n = n' + length news /\ inserts chk false lt eqb cb b x base size vs = Ok r')
    (fun w t => w = Element /\ n < length news /\ torn l news r n t).
Proof using T EV.
  intros M I Iv Eb Es news Ei Hr. unfold x_inserts, inserts. destruct (Nat.eqb_spec size 0) as [E0|E0].
  - destruct l; [|simpl in *; lia]. unfold news in *. rewrite missing_nil in *. cbn [still xcb_inc]. rewrite Ei. cbn [xlift xbind bind].
    destruct r as [[b1 x1] base1]. destruct Hr as (p1 & s1 & E1 & HQ & M1). simpl in M1.
    eapply xspec_mono; [apply (@x_set_loop_spec vs n b1 x1 p1 s1 0 M1 base1); lia| |].
    + intros n' r' H. exact H.
    + intros w t (-> & Hn & Ex & M'). split; [reflexivity|]. split; [exact Hn|]. cbn [torn]. split; [exact Ex|].
      destruct (nth_error (rev vs) n) as [v|] eqn:Nv; [|apply nth_error_None in Nv; rewrite rev_length in Nv; lia].
      exists v, [], [], (firstn n vs), p1, s1. split; [reflexivity|]. split; [reflexivity|]. split; [constructor|]. split; [constructor|].
      split; [exact E1|]. split; [exact HQ|]. split; [rewrite firstn_length; simpl; lia|]. right. auto.
  - assert (Ec : count_loop lt eqb b base size size 0 (rev vs) = Ok (length news)).
    { pose proof (@count_loop_ok V V X false lt eqb id T (fun _ _ _ _ => True) b p s l base size) as CL. rewrite map_id in CL. specialize (CL M I Eb Es (rev vs) l [] 0).
      rewrite map_id, rev_involutive in CL. rewrite <- Es in CL. rewrite CL; auto.
      rewrite app_nil_r; auto. }
    rewrite Ec. cbn [xlift xbind bind still xcb_inc]. rewrite Ei. cbn [xlift xbind bind]. destruct r as [[b1 x1] base1].
    destruct (Nat.eqb_spec (length news) 0) as [N0|N0].
    + cbn. rewrite N0. split; [lia|reflexivity].
    + destruct Hr as (p1 & s1 & E1 & HQ & M1). subst base1 size. fold (still cb).
      eapply xspec_bind; [eapply xspec_mono; [apply (@x_insert_loop_spec (rev vs) n b1 x1 p1 s1 l [] (length news))| |]|].
      * rewrite rev_involutive. auto.
      * rewrite app_nil_r. auto.
      * intros ? ? ? [].
      * rewrite missing_rev, rev_length. reflexivity.
      * exact M1.
      * intros n' r' H. exact H.
      * intros w t (-> & Hn & Ex & v & A1 & A2 & C & Nv & EA & L1 & L2 & LC & M'). split; [reflexivity|]. split; [exact Hn|]. cbn [torn].
        split; [exact Ex|]. exists v, A1, A2, C, p1, s1. rewrite missing_rev in Nv. split; [exact Nv|]. split; [exact EA|].
        split; [exact L1|]. split; [exact L2|]. split; [reflexivity|]. split; [exact HQ|]. split; [simpl in LC; lia|]. left.
        split; [intros ->; simpl in E0; lia|]. exact M'.
      * intros n' r' (-> & Er). rewrite Er. destruct r'. cbn. auto.
Qed.
End Ops.
