(** Exceptions in the notifications of an insertion: the values are of a trivial type, what the callbacks build throws.
    [RX] describes the state of the callbacks as in SortedProofs3. *)
From Coq Require Import List Arith ZArith Lia Bool Sorting.Sorted.
From Verif Require Import Base BaseProofs Mem MemProofs BufferManip Sorted SortedSpec SortedProofs SortedProofs2 SortedProofs3
  Throw ThrowProofs ThrowSorted.
From Verif Require ArrayManip ArrayManipProofs.
Import ListNotations.
Set Implicit Arguments.
Unset Strict Implicit.

Section Ops.
Variable V P X : Type.
Variable chk : bool.
Variable lt eqb : V -> V -> bool.
Variable key : P -> V.
Hypothesis T : total_order lt eqb.
Variable cb : xcallbacks V X.
Variable RX : list (lcell V) -> list (lcell V) -> list (option P) -> X -> Prop.
Let SW := to_swo T.
Notation mem := (@mem V true).
Notation LVs := (map (@LV V)).
Notation keys := (map key).
Notation pincr l := (StronglySorted (fun x y => lt (key x) (key y) = true) l).
Notation less A v := (Forall (fun e => lt (key e) (key v) = true) A).
Notation more B v := (Forall (fun e => lt (key v) (key e) = true) B).
Notation present := (present eqb key).
Notation missing A l := (filter (fun w => negb (present A (key w))) l).

(** Trivial values can be forgotten. *)
Lemma mem_forget b p m s : mem b (p ++ m ++ s) -> mem b (p ++ repeat LN (length m) ++ s).
Proof.
  intros M. apply mem_app_inv in M. destruct M as (b1 & b2 & -> & M1 & M). apply mem_app_inv in M. destruct M as (b3 & b4 & -> & M3 & M4).
  apply mem_app; auto. apply mem_app; auto. clear -M3. induction M3; simpl; constructor; auto. left. reflexivity.
Qed.

Lemma find_in b p s A w base size : mem b (p ++ LVs (keys A) ++ s) -> pincr A -> base = length p -> size = length A ->
  exists A1 A2, A = A1 ++ A2 /\ less A1 w /\ Forall (fun e => lt (key e) (key w) = false) A2 /\
    find lt b base size (key w) = Ok (length A1) /\
    (if length A1 =? size then Ok false else y <- rd b (base + length A1) ;; Ok (eqb y (key w))) = Ok (present A (key w)) /\
    (present A (key w) = false -> more A2 w).
Proof using T.
  intros M I -> ->. destruct (psplit (key := key) T (key w) I) as (A1 & A2 & -> & LA & GA).
  exists A1, A2. split; [reflexivity|]. split; [exact LA|]. split; [exact GA|]. split; [|split].
  - eapply (@pfind V P true lt key); eauto. apply app_length.
  - eapply (@check_present V P true lt eqb key T); eauto. apply app_length.
  - intros Pr. rewrite (present_app eqb key A1 A2 (key w)), (present_less (key := key) T LA) in Pr. simpl in Pr.
    clear -T Pr GA. induction GA as [|e B H GB IH]; constructor.
    + simpl in Pr. apply orb_false_iff in Pr. apply (ge_neq T); tauto.
    + simpl in Pr. apply orb_false_iff in Pr. tauto.
Qed.

(** Where a construction in the callbacks may throw, and what it leaves. *)
Definition ev_insertN_spec (all : list P) : Prop :=
  forall n k w nLeft A B C x p s, nth_error all k = Some w -> RX p s (map Some (A ++ B) ++ repeat None (S nLeft) ++ map Some C) x ->
    xspec (xcb_ev cb n (EInsertN (S nLeft) k (length A) (length A + length B)) x)
      (fun n' x' => n = n' + 1 /\ RX p s (map Some A ++ repeat None nLeft ++ map Some (w :: B ++ C)) x')
      (fun why x' => why = Element /\ n = 0 /\ RX p s (map Some A ++ repeat None (S nLeft) ++ map Some (B ++ C)) x').
Definition ev_set_spec (all : list P) : Prop :=
  forall n k w A g x p s, nth_error all k = Some w -> length A = k -> RX p s (map Some A ++ None :: g) x ->
    xspec (xcb_ev cb n (ESet k k) x)
      (fun n' x' => n = n' + 1 /\ RX p s (map Some (A ++ [w]) ++ g) x')
      (fun why x' => why = Element /\ n = 0 /\ RX p s (map Some A ++ None :: g) x').
Definition ev_insert_spec (w : P) (es : list P) : Prop :=
  forall n A B x p s, es = A ++ B -> RX p s (map Some es ++ [None]) x ->
    xspec (xcb_ev cb n (EInsert (length A)) x)
      (fun n' x' => n = n' + 1 /\ RX p s (map Some (A ++ w :: B)) x')
      (fun why x' => why = Element /\ n = 0 /\ RX p s (map Some A ++ [None] ++ map Some B) x').

Lemma construct_t n (b : buf V) p c s i v : mem b (p ++ c :: s) -> i = length p -> MemProofs.free c ->
  exists b', x_construct true n b i v = XOk n b' /\ mem b' (p ++ LV v :: s).
Proof. intros M E F. destruct (@construct_ok V true b p c s i v M E F) as (b' & Eb & Mb). exists b'. unfold x_construct. rewrite Eb. auto. Qed.

Lemma loop_t (all : list P) : ev_insertN_spec all -> forall rws n b x p s A C nLeft,
  (exists done, all = rev rws ++ done) ->
  pincr (rev rws) -> pincr (A ++ C) -> (forall w c, In w rws -> In c C -> lt (key w) (key c) = true) ->
  length (missing A rws) = nLeft ->
  mem b (p ++ LVs (keys A) ++ repeat LN nLeft ++ LVs (keys C) ++ s) ->
  RX p s (map Some A ++ repeat None nLeft ++ map Some C) x ->
  xspec (x_insert_loop chk true lt eqb cb n b x (length p) (length A) nLeft (keys rws))
    (fun n' _ => n = n' + nLeft)
    (fun why t => why = Element /\ n < nLeft /\ exists w A1 A2 C', nth_error (missing A rws) n = Some w /\
       A = A1 ++ A2 /\ less A1 w /\ more A2 w /\ length C' = length A2 + n + length C /\
       mem (fst t) (p ++ LVs (keys A1) ++ repeat LN (nLeft + length A2 + length C) ++ s) /\
       RX p s (map Some A1 ++ repeat None (nLeft - n) ++ map Some C') (snd t)).
Proof using T.
  intros HE. induction rws as [|w rws IH]; intros n b x p s A C nLeft (done & Ed) Iw I LC Len M R.
  - simpl in Len. subst nLeft. simpl. lia.
  - simpl rev in *. apply strong_app in Iw. destruct Iw as (Iw & _ & Lw).
    pose proof I as I'. apply strong_app in I'. destruct I' as (IA & IC & LAC).
    destruct (@find_in b p (repeat LN nLeft ++ LVs (keys C) ++ s) A w (length p) (length A) M IA eq_refl eq_refl)
      as (A1 & A2 & EA & LA & GA & Ef & Ep & MA).
    cbn [x_insert_loop map]. rewrite Ef. cbn [xlift xbind]. rewrite Ep. cbn [xlift xbind].
    simpl filter in Len |- *. destruct (present A (key w)) eqn:Pr; cbn [negb] in Len |- *.
    + apply IH; auto.
      * exists (w :: done). rewrite Ed. lapp. auto.
      * intros. apply LC; simpl; auto.
    + specialize (MA eq_refl). simpl in Len. destruct nLeft as [|nLeft]; [lia|]. injection Len as Len.
      destruct (@ArrayManipProofs.shiftUp_ok V chk true b p (keys A1) (keys A2) (S nLeft) (LVs (keys C) ++ s) (length p) (length A) (length A1)) as (b1 & E1 & M1).
      * eapply mem_cast; [exact M|]. rewrite EA, !map_app. lapp. auto.
      * reflexivity.
      * len.
      * subst A; len.
      * rewrite E1. cbn [xlift xbind]. unfold sub_ix.
        replace (1 <=? length p + length A1 + S nLeft) with true by (symmetry; apply Nat.leb_le; lia). cbn [xlift xbind].
        destruct (@construct_t n b1 (p ++ LVs (keys A1) ++ repeat LN nLeft) LN (LVs (keys A2) ++ LVs (keys C) ++ s) (length p + length A1 + S nLeft - 1) (key w))
          as (b2 & E2 & M2).
        -- eapply mem_cast; [exact M1|]. rewrite repeat_snoc. lapp. auto.
        -- len.
        -- simpl; auto.
        -- rewrite E2. cbn [xleft xbind].
           assert (R' : RX p s (map Some (A1 ++ A2) ++ repeat None (S nLeft) ++ map Some C) x) by (rewrite <- EA; exact R).
           assert (Nk : nth_error all (length (keys rws)) = Some w).
           { rewrite Ed, <- app_assoc, nth_error_app2 by len. rewrite map_length, rev_length, Nat.sub_diag. reflexivity. }
           pose proof (HE n (length (keys rws)) w nLeft A1 A2 C x p s Nk R') as HN.
           replace (length A1 + length A2) with (length A) in HN by (subst A; len).
           assert (W2 : mem b2 (p ++ LVs (keys A1) ++ repeat LN (S nLeft + length A2 + length C) ++ s)).
           { assert (W1 : mem b2 ((p ++ LVs (keys A1)) ++ (repeat LN nLeft ++ LV (key w) :: LVs (keys A2) ++ LVs (keys C)) ++ s))
               by (eapply mem_cast; [exact M2|]; lapp; auto).
             apply mem_forget in W1. eapply mem_cast; [exact W1|]. rewrite <- app_assoc. do 4 f_equal. len. }
           eapply xspec_bind; [apply xspec_left; eapply xspec_mono; [exact HN| |]|].
           ++ intros n' x' H. exact H.
           ++ intros why t (-> & -> & Rt). split; [reflexivity|]. split; [lia|]. exists w, A1, A2, (A2 ++ C).
              split; [reflexivity|]. split; [exact EA|]. split; [exact LA|]. split; [exact MA|]. split; [len|]. cbn [fst snd].
              split; [exact W2|]. rewrite Nat.sub_0_r. exact Rt.
           ++ intros n' x2 (-> & R2). replace (S nLeft - 1) with nLeft by lia.
              assert (EP : missing A1 rws = missing A rws).
              { apply filter_ext_in. intros w' Hw'. f_equal. rewrite EA, (present_app eqb key A1 A2 (key w')).
                replace (present A2 (key w')) with false; [rewrite orb_false_r; reflexivity|]. symmetry.
                assert (L' : lt (key w') (key w) = true) by (apply Lw; simpl; auto; apply in_rev in Hw'; auto).
                clear -T MA L'. induction MA as [|e B H MB IH]; simpl; auto. rewrite IH, orb_false_r.
                apply (lt_neq' T). apply (trans (to_swo T) L' H). }
              eapply xspec_mono; [apply (IH n' b2 x2 p s A1 (w :: A2 ++ C) nLeft)| |].
              ** exists (w :: done). rewrite Ed. lapp. auto.
              ** exact Iw.
              ** rewrite EA in I. rewrite <- app_assoc in I. apply strong_app in I. destruct I as (I1 & I2 & I3).
                 apply strong_app. split; [exact I1|]. split.
                 --- constructor; auto. apply Forall_app. split; auto. apply Forall_forall. intros c Hc. apply LC; simpl; auto.
                 --- intros a c Ha [<-|Hc]; auto. rewrite Forall_forall in LA. apply LA. auto.
              ** intros w' c Hw' [<-|Hc]; [apply Lw; simpl; auto; apply in_rev in Hw'; auto|].
                 assert (lt (key w) (key c) = true).
                 { apply in_app_or in Hc. destruct Hc as [Hc|Hc]; [rewrite Forall_forall in MA; auto|apply LC; simpl; auto]. }
                 eapply (trans SW); eauto. apply Lw; simpl; auto. apply in_rev in Hw'; auto.
              ** rewrite EP. exact Len.
              ** eapply mem_cast; [exact M2|]. simpl. rewrite !map_app. lapp. auto.
              ** exact R2.
              ** intros n2 _ ->. lia.
              ** intros why t (-> & Hn & v & B1 & B2 & C' & Nv & EB & L1 & L2 & LC' & M' & Rt).
                 split; [reflexivity|]. split; [lia|]. exists v, B1, (B2 ++ A2), C'.
                 assert (Lv : lt (key v) (key w) = true).
                 { apply nth_error_In in Nv. apply filter_In in Nv. destruct Nv as [Nv _]. apply Lw; simpl; auto. apply in_rev in Nv. auto. }
                 split; [rewrite Nat.add_1_r; simpl; rewrite <- EP; exact Nv|]. split; [rewrite EA, EB; lapp; auto|].
                 split; [exact L1|]. split; [apply Forall_app; split; auto; eapply Forall_impl; [|exact MA]; intros e He; eapply (trans SW); eauto|].
                 split; [rewrite LC'; simpl; rewrite !app_length; lia|]. split.
                 --- eapply mem_cast; [exact M'|]. do 3 f_equal. f_equal. simpl. rewrite !app_length. lia.
                 --- replace (S nLeft - (n' + 1)) with (nLeft - n') by lia. exact Rt.
Qed.

Lemma set_t (all : list P) : ev_set_spec all -> forall ws A n b x p s, all = A ++ ws ->
  mem b (p ++ LVs (keys A) ++ repeat LN (length ws) ++ s) -> RX p s (map Some A ++ repeat None (length ws)) x ->
  xspec (x_set_loop true cb n b x (length p) (length A) (keys ws))
    (fun n' _ => n = n' + length ws)
    (fun why t => why = Element /\ n < length ws /\
       mem (fst t) (p ++ repeat LN (length A + length ws) ++ s) /\
       RX p s (map Some (A ++ firstn n ws) ++ repeat None (length ws - n)) (snd t)).
Proof.
  intros HE. induction ws as [|w ws IH]; intros A n b x p s E M R; cbn [x_set_loop map length].
  - simpl. lia.
  - destruct (@construct_t n b (p ++ LVs (keys A)) LN (repeat LN (length ws) ++ s) (length p + length A) (key w)) as (b2 & E2 & M2).
    + eapply mem_cast; [exact M|]. simpl. lapp. auto.
    + len.
    + simpl; auto.
    + rewrite E2. cbn [xleft xbind].
      assert (W2 : mem b2 (p ++ repeat LN (length A + length (w :: ws)) ++ s)).
      { assert (W1 : mem b2 (p ++ (LVs (keys A) ++ LV (key w) :: repeat LN (length ws)) ++ s)) by (eapply mem_cast; [exact M2|]; lapp; auto).
        apply mem_forget in W1. eapply mem_cast; [exact W1|]. do 3 f_equal. len. }
      eapply xspec_bind; [apply xspec_left; eapply xspec_mono; [eapply HE; [|reflexivity|exact R]| |]|].
      * rewrite E, nth_error_app2, Nat.sub_diag by lia. reflexivity.
      * intros n' x' H. exact H.
      * intros why t (-> & -> & Rt). split; [reflexivity|]. split; [lia|]. cbn [fst snd firstn]. split; [exact W2|].
        rewrite app_nil_r, Nat.sub_0_r. exact Rt.
      * intros n' x2 (-> & R2). replace (length A + 1) with (length (A ++ [w])) by len.
        eapply xspec_mono; [apply (IH (A ++ [w]) n' b2 x2 p s)| |].
        -- rewrite E. lapp. auto.
        -- eapply mem_cast; [exact M2|]. rewrite !map_app. lapp. auto.
        -- exact R2.
        -- intros n2 _ ->. lia.
        -- intros why t (-> & Hn & M' & Rt). split; [reflexivity|]. split; [lia|]. split.
           ++ eapply mem_cast; [exact M'|]. do 3 f_equal. len.
           ++ rewrite Nat.add_1_r. cbn [firstn]. rewrite <- app_assoc in Rt. exact Rt.
Qed.

(** What is left after an exception: the elements before the place of the one that threw. *)
Definition torn (es news : list P) (n : nat) (t : buf V * X) : Prop :=
  exists w A1 A2 C p s, nth_error (rev news) n = Some w /\ es = A1 ++ A2 /\ less A1 w /\ more A2 w /\
    length C = length A2 + n /\ mem (fst t) (p ++ LVs (keys A1) ++ repeat LN (length news + length A2) ++ s) /\
    ((es <> [] /\ RX p s (map Some A1 ++ repeat None (length news - n) ++ map Some C) (snd t)) \/
     (es = [] /\ RX p s (map Some C ++ repeat None (length news - n)) (snd t))).

Lemma insert1_t n b x p s es w base size r : mem b (p ++ LVs (keys es) ++ s) -> pincr es -> base = length p -> size = length es ->
  ev_insert_spec w es ->
  let news := missing es [w] in
  xcb_inc cb (length news) (b, x) = Ok r -> inc_post true key RX es (length news) r ->
  xspec (x_insert1 chk true lt eqb cb n b x base size (key w))
    (fun n' _ => n = n' + length news)
    (fun why t => why = Element /\ n < length news /\ torn es news n t).
Proof using T.
  intros M I Eb Es HE news Ei Hr.
  destruct (@find_in b p s es w base size M I Eb Es) as (A1 & A2 & EA & LA & GA & _ & Ep & MA).
  assert (Epos : insert_pos lt b base size (key w) = Ok (length A1)).
  { eapply (@insert_pos_ok V P true lt eqb key T); eauto; [rewrite <- EA; exact M|rewrite <- EA; exact I|rewrite Es, EA; apply app_length]. }
  unfold x_insert1. rewrite Epos. cbn [xlift xbind]. rewrite Ep. cbn [xlift xbind].
  assert (En : news = if present es (key w) then [] else [w]) by (unfold news; simpl; destruct (present es (key w)); reflexivity).
  clearbody news. destruct (present es (key w)) eqn:Pr; subst news.
  - cbn [length] in *. rewrite Ei. destruct r as [[b' x'] base']. cbn. lia.
  - specialize (MA eq_refl). cbn [length] in *. rewrite Ei. cbn [xlift xbind]. destruct r as [[b1 x1] base1].
    destruct Hr as (p1 & s1 & E1 & M1 & R1). subst base1. unfold x_am_emplace, ArrayManip.check_insert_bounds.
    rewrite !check_if_ok by (apply Nat.ltb_ge; rewrite Es, EA, app_length; lia). cbn [xlift xbind].
    destruct (@ArrayManipProofs.shiftUp_ok V chk true b1 p1 (keys A1) (keys A2) 1 s1 (length p1) size (length A1)) as (b2 & E2 & M2).
    + eapply mem_cast; [exact M1|]. rewrite EA, !map_app. lapp. auto.
    + reflexivity.
    + len.
    + rewrite Es, EA. len.
    + rewrite E2. cbn [xlift xbind].
      destruct (@construct_t n b2 (p1 ++ LVs (keys A1)) LN (LVs (keys A2) ++ s1) (length p1 + length A1) (key w)) as (b3 & E3 & M3).
      * eapply mem_cast; [exact M2|]. simpl. lapp. auto.
      * len.
      * simpl; auto.
      * rewrite E3. cbn [xleft xbind].
        eapply xspec_bind; [apply xspec_left; eapply xspec_mono; [eapply HE; [exact EA|exact R1]| |]|].
        -- intros n' x' H. exact H.
        -- intros why t (-> & -> & Rt). split; [reflexivity|]. split; [lia|]. exists w, A1, A2, A2, p1, s1.
           split; [reflexivity|]. split; [exact EA|]. split; [exact LA|]. split; [exact MA|]. split; [lia|]. cbn [fst snd length]. split.
           ++ assert (W1 : mem b3 ((p1 ++ LVs (keys A1)) ++ (LV (key w) :: LVs (keys A2)) ++ s1)) by (eapply mem_cast; [exact M3|]; lapp; auto).
              apply mem_forget in W1. eapply mem_cast; [exact W1|]. rewrite <- app_assoc. do 4 f_equal. len.
           ++ destruct es as [|e0 es0]; [right|left; split; [discriminate|exact Rt]].
              symmetry in EA. apply app_eq_nil in EA. destruct EA as [-> ->]. split; [reflexivity|exact Rt].
        -- intros n' x2 (-> & _). cbn [xspec]. reflexivity.
Qed.

Lemma missing_rev es ws : missing es (rev ws) = rev (missing es ws).
Proof. induction ws as [|w ws IH]; simpl; auto. rewrite filter_app, IH. simpl. destruct (present es (key w)); simpl; rewrite ?app_nil_r; auto. Qed.
Lemma missing_nil ws : missing [] ws = ws.
Proof. induction ws as [|w ws IH]; [reflexivity|]. simpl. f_equal. exact IH. Qed.

Lemma inserts_t n b x p s es ws base size r : mem b (p ++ LVs (keys es) ++ s) -> pincr es -> pincr ws -> base = length p -> size = length es ->
  ev_set_spec ws -> ev_insertN_spec ws ->
  let news := missing es ws in
  xcb_inc cb (length news) (b, x) = Ok r -> inc_post true key RX es (length news) r ->
  xspec (x_inserts chk true lt eqb cb n b x base size (keys ws))
    (fun n' _ => n = n' + length news)
    (fun why t => why = Element /\ n < length news /\ torn es news n t).
Proof using T.
  intros M I Iw Eb Es HS HN news Ei Hr. unfold x_inserts. destruct (Nat.eqb_spec size 0) as [E0|E0].
  - destruct es; [|simpl in *; lia]. assert (EN : news = ws) by apply missing_nil. clearbody news. subst news. rewrite map_length, Ei. cbn [xlift xbind].
    destruct r as [[b1 x1] base1]. destruct Hr as (p1 & s1 & E1 & M1 & R1). subst base1.
    eapply xspec_mono; [apply (@set_t ws HS ws [] n b1 x1 p1 s1 eq_refl M1 R1)| |].
    + intros n' r' H. exact H.
    + intros why t (-> & Hn & M' & Rt). split; [reflexivity|]. split; [exact Hn|].
      destruct (nth_error (rev ws) n) as [v|] eqn:Nv; [|apply nth_error_None in Nv; rewrite rev_length in Nv; lia].
      exists v, [], [], (firstn n ws), p1, s1. split; [exact Nv|]. split; [reflexivity|]. split; [constructor|]. split; [constructor|].
      split; [rewrite firstn_length; simpl; lia|]. split; [|right; split; [reflexivity|exact Rt]].
      eapply mem_cast; [exact M'|]. cbn [app length map]. do 3 f_equal. lia.
  - assert (Ec : count_loop lt eqb b base size size 0 (keys (rev ws)) = Ok (length news)).
    { pose proof (@count_loop_ok V P X true lt eqb key T RX b p s es base size M I Eb Es (rev ws) es [] 0) as CL.
      rewrite rev_involutive in CL. rewrite <- Es in CL. rewrite CL; auto.
      rewrite app_nil_r; auto. }
    rewrite <- map_rev, Ec. cbn [xlift xbind]. rewrite Ei. cbn [xlift xbind]. destruct r as [[b1 x1] base1].
    destruct (Nat.eqb_spec (length news) 0) as [N0|N0].
    + cbn. lia.
    + destruct Hr as (p1 & s1 & E1 & M1 & R1). subst base1 size.
      eapply xspec_bind; [eapply xspec_mono; [apply (@loop_t ws HN (rev ws) n b1 x1 p1 s1 es [] (length news))| |]|].
      * exists []. rewrite rev_involutive, app_nil_r. auto.
      * rewrite rev_involutive. auto.
      * rewrite app_nil_r. auto.
      * intros ? ? ? [].
      * rewrite missing_rev, rev_length. reflexivity.
      * exact M1.
      * simpl. rewrite app_nil_r. exact R1.
      * intros n' r' H. exact H.
      * intros why t (-> & Hn & w & A1 & A2 & C & Nv & EA & L1 & L2 & LC & M' & Rt). split; [reflexivity|]. split; [exact Hn|].
        exists w, A1, A2, C, p1, s1. rewrite missing_rev in Nv. split; [exact Nv|]. split; [exact EA|].
        split; [exact L1|]. split; [exact L2|]. split; [simpl in LC; lia|]. split; [eapply mem_cast; [exact M'|]; do 3 f_equal; f_equal; simpl; lia|].
        left. split; [intros ->; simpl in E0; lia|]. exact Rt.
      * intros n' r' ->. cbn [xspec]. reflexivity.
Qed.
End Ops.
