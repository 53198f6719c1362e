(** The operations of Sorted.v on a range of keyed elements. *)
From Coq Require Import List Arith ZArith Lia Bool Sorting.Sorted.
From Verif Require Import Base BaseProofs Mem MemProofs ArrayManipProofs Sorted SortedSpec SortedProofs SortedProofs2.
From Verif Require ArrayManip.
Import ListNotations.
Set Implicit Arguments.
Unset Strict Implicit.

Section Ops.
Variable V P X : Type.
Variable chk triv : bool.
Variable lt eqb : V -> V -> bool.
Variable key : P -> V.
Hypothesis T : total_order lt eqb.
Variable cb : callbacks V X.
Variable RX : list (lcell V) -> list (lcell V) -> list (option P) -> X -> Prop.
Let W := to_swo T.
Notation mem := (@mem V triv).
Notation LVs := (map (@LV V)).
Notation pincr l := (StronglySorted (fun x y => lt (key x) (key y) = true) l).
Notation less A v := (Forall (fun e => lt (key e) v = true) A).
Notation geq B v := (Forall (fun e => lt (key e) v = false) B).
Notation present := (present eqb key).
Notation pinsert := (pinsert lt eqb key).
Notation pdiff := (pdiff eqb key).
Notation absent := (absent eqb key).
Notation keys := (map key).

Lemma pfind b p s A B v base size : mem b (p ++ LVs (keys (A ++ B)) ++ s) -> less A v -> geq B v ->
  base = length p -> size = length A + length B -> find lt b base size v = Ok (length A).
Proof.
  intros M LA GB E1 E2. rewrite <- (map_length key A). eapply find_ok with (a := keys A) (c := keys B).
  - eapply mem_cast; [exact M|]. rewrite map_app. auto.
  - apply Forall_map. auto.
  - apply Forall_map. auto.
  - auto.
  - rewrite !map_length. auto.
Qed.

Lemma prd b p s A e B i : mem b (p ++ LVs (keys (A ++ e :: B)) ++ s) -> i = length p + length A -> rd b i = Ok (key e).
Proof.
  intros M ->. eapply rd_ok with (p := p ++ LVs (keys A)) (s := LVs (keys B) ++ s).
  - eapply mem_cast; [exact M|]. rewrite !map_app. simpl. lapp. auto.
  - len.
Qed.

(** The test made after a search. *)
Lemma check_present b p s A B v base size : mem b (p ++ LVs (keys (A ++ B)) ++ s) ->
  pincr (A ++ B) -> less A v -> geq B v -> base = length p -> size = length A + length B ->
  (if length A =? size then Ok false else y <- rd b (base + length A) ;; Ok (eqb y v)) = Ok (present (A ++ B) v).
Proof using T.
  intros M I LA GB -> ->. rewrite present_app, (present_less T LA). simpl. destruct B as [|e B].
  - replace (length A + length (@nil P)) with (length A) by (simpl; lia). rewrite Nat.eqb_refl. auto.
  - destruct (Nat.eqb_spec (length A) (length A + length (e :: B))) as [X0|_]; [clear -X0; simpl in X0; lia|].
    erewrite prd by eauto. simpl. f_equal. symmetry. apply (present_head T).
    + apply strong_app in I. apply I.
    + inversion GB; auto.
Qed.

Lemma contains_ok b p s es v base size : mem b (p ++ LVs (keys es) ++ s) -> pincr es -> base = length p -> size = length es ->
  contains lt eqb b base size v = Ok (present es v).
Proof using T.
  intros M I Eb Es. destruct (psplit T v I) as (A & B & -> & LA & GB). rewrite app_length in Es.
  unfold contains. erewrite pfind by eauto. cbn [bind]. eapply check_present; eauto.
Qed.

Lemma insert_pos_ok b p s A B v base size : mem b (p ++ LVs (keys (A ++ B)) ++ s) ->
  pincr (A ++ B) -> less A v -> geq B v -> base = length p -> size = length A + length B ->
  insert_pos lt b base size v = Ok (length A).
Proof.
  intros M I LA GB Eb Es. unfold insert_pos. destruct (Nat.eqb_spec size 0); [f_equal; lia|].
  assert (R0 : exists e, rd b (base + 0) = Ok (key e) /\ (lt v (key e) = true -> A = [])).
  { destruct A as [|a A].
    - destruct B as [|e B]; [simpl in *; lia|]. exists e. split; auto.
      eapply prd with (A := []); [exact M|simpl; lia].
    - exists a. split; [eapply prd with (A := []) (B := A ++ B); [exact M|simpl; lia]|].
      inversion LA; subst. rewrite (lt_le W H1). discriminate. }
  destruct R0 as (e & -> & H0). cbn [bind]. destruct (lt v (key e)).
  { rewrite H0; auto. }
  assert (RL : exists e, rd b (base + (size - 1)) = Ok (key e) /\ (lt (key e) v = true -> B = [])).
  { destruct (rev B) as [|z Z] eqn:EB.
    - apply (f_equal (@rev P)) in EB. rewrite rev_involutive in EB. simpl in EB. subst B.
      destruct (rev A) as [|z Z] eqn:EA.
      + apply (f_equal (@length P)) in EA. rewrite rev_length in EA. simpl in *. lia.
      + apply (f_equal (@rev P)) in EA. rewrite rev_involutive in EA. simpl in EA. subst A.
        exists z. split; auto. eapply prd with (p := p) (s := s) (A := rev Z) (B := []).
        * eapply mem_cast; [exact M|]. lapp. auto.
        * subst. len.
    - apply (f_equal (@rev P)) in EB. rewrite rev_involutive in EB. simpl in EB. subst B.
      exists z. split.
      + eapply prd with (p := p) (s := s) (A := A ++ rev Z) (B := []).
        * eapply mem_cast; [exact M|]. lapp. auto.
        * subst. len.
      + apply Forall_app in GB. destruct GB as [_ GB]. inversion GB; subst. rewrite H2. discriminate. }
  destruct RL as (e2 & -> & HL). cbn [bind]. destruct (lt (key e2) v).
  { rewrite HL in Es by auto. simpl in Es. f_equal. lia. }
  eapply pfind; eauto.
Qed.

(** What incrementSize has to provide. *)
Definition inc_post (es : list P) (n : nat) (r : buf V * X * nat) : Prop :=
  let '(b', x', base') := r in exists p' s', base' = length p' /\
    mem b' (p' ++ LVs (keys es) ++ repeat LN n ++ s') /\ RX p' s' (map Some es ++ repeat None n) x'.
(** The state afterwards. *)
Definition ins_post (es : list P) (b' : buf V) (x' : X) : Prop := exists p' s',
  mem b' (p' ++ LVs (keys es) ++ s') /\ RX p' s' (map Some es) x'.

(** insert of one element: incrementSize is the first effect, whatever it does. *)
Lemma insert_ok_at b x p s es w base size : mem b (p ++ LVs (keys es) ++ s) -> pincr es -> base = length p -> size = length es ->
  (forall p' s' A B x', es = A ++ B -> Forall (fun e => lt (key e) (key w) = true) A -> Forall (fun e => lt (key w) (key e) = true) B ->
     RX p' s' (map Some es ++ [None]) x' ->
     oks (cb_ev cb (EInsert (length A)) x') (RX p' s' (map Some (A ++ w :: B)))) ->
  let n := if present es (key w) then 0 else 1 in
  exists k, insert chk triv lt eqb cb b x base size (key w) = bind (cb_inc cb n (b, x)) k /\
  forall r, inc_post es n r ->
    oks (k r) (fun r' => ins_post (pinsert w es) (fst (fst r')) (snd (fst r')) /\ snd r' = negb (present es (key w))).
Proof.
  intros M I Eb Es HE n. unfold insert.
  destruct (psplit T (key w) I) as (A & B & E & LA & GB).
  assert (Ls : size = length A + length B) by (subst es; rewrite app_length in Es; auto).
  pose proof M as M0. rewrite E in M0. pose proof I as I0. rewrite E in I0.
  erewrite insert_pos_ok by eauto. cbn [bind].
  erewrite check_present by eauto. cbn [bind].
  rewrite <- E. unfold n. clear n. destruct (present es (key w)) eqn:Pr.
  - eexists. split; [reflexivity|]. intros [[b' x'] base'] (p' & s' & _ & M' & R'). apply oks_ok. cbn.
    split; auto. rewrite (pinsert_present T) by auto. exists p', s'. simpl in *. rewrite app_nil_r in R'. auto.
  - assert (GB' : Forall (fun e => lt (key w) (key e) = true) B).
    { subst es. rewrite present_app, (present_less T LA) in Pr. simpl in Pr. clear -T Pr GB. induction GB as [|e B H GB IH]; constructor.
      - simpl in Pr. apply orb_false_iff in Pr. apply (ge_neq T); tauto.
      - simpl in Pr. apply orb_false_iff in Pr. tauto. }
    eexists. split; [reflexivity|]. intros [[b' x'] base'] (p' & s' & Eb' & M' & R').
    eapply oks_bind.
    + eapply (@emplace_ok V chk triv b' p' (keys A) (keys B) s'); auto.
      * eapply mem_cast; [exact M'|]. rewrite E, !map_app. lapp. auto.
      * len.
      * len.
    + intros b2 M2. eapply oks_bind.
      * apply (HE p' s' A B x' E LA GB'). exact R'.
      * intros x2 R2. apply oks_ok. cbn. split; auto.
        assert (EI : pinsert w es = A ++ w :: B).
        { subst es. rewrite pinsert_less by auto. f_equal. apply (pinsert_absent T). exact GB'. }
        exists p', s'. rewrite EI. split; auto. eapply mem_cast; [exact M2|]. rewrite !map_app. simpl. auto.
Qed.
Lemma insert_ok b x p s es w base size : mem b (p ++ LVs (keys es) ++ s) -> pincr es -> base = length p -> size = length es ->
  (forall p' s' A B x', es = A ++ B -> RX p' s' (map Some es ++ [None]) x' ->
     oks (cb_ev cb (EInsert (length A)) x') (RX p' s' (map Some (A ++ w :: B)))) ->
  let n := if present es (key w) then 0 else 1 in
  exists k, insert chk triv lt eqb cb b x base size (key w) = bind (cb_inc cb n (b, x)) k /\
  forall r, inc_post es n r ->
    oks (k r) (fun r' => ins_post (pinsert w es) (fst (fst r')) (snd (fst r')) /\ snd r' = negb (present es (key w))).
Proof. intros M I Eb Es HE. eapply insert_ok_at; eauto. Qed.

Lemma set_loop_ok (HE : list P) : forall b x p s A ws, 
  (forall k w x p' s' A g, nth_error HE k = Some w -> length A = k -> RX p' s' (map Some A ++ None :: g) x ->
      oks (cb_ev cb (ESet k k) x) (RX p' s' (map Some (A ++ [w]) ++ g))) ->
  HE = A ++ ws ->
  mem b (p ++ LVs (keys A) ++ repeat LN (length ws) ++ s) -> RX p s (map Some A ++ repeat None (length ws)) x ->
  oks (set_loop triv cb b x (length p) (length A) (keys ws))
      (fun r => mem (fst (fst r)) (p ++ LVs (keys HE) ++ s) /\ RX p s (map Some HE) (snd (fst r)) /\ snd r = length HE).
Proof.
  intros b x p s A ws; revert b x A. induction ws as [|w ws IH]; intros b x A H E M R; simpl.
  - apply oks_ok. simpl in *. rewrite app_nil_r in *. subst. auto.
  - eapply oks_bind.
    + eapply construct_ok with (p := p ++ LVs (keys A)) (c := LN) (s := repeat LN (length ws) ++ s).
      * eapply mem_cast; [exact M|]. lapp. auto.
      * len.
      * simpl. auto.
    + intros b2 M2. eapply oks_bind.
      * eapply H; [|reflexivity|exact R]. rewrite E, nth_error_app2, Nat.sub_diag by lia. reflexivity.
      * intros x2 R2. replace (length A + 1) with (length (A ++ [w])) by len. apply IH; auto.
        -- rewrite E. lapp. auto.
        -- eapply mem_cast; [exact M2|]. rewrite !map_app. lapp. auto.
Qed.

Lemma less_weaken A B v v' : less A v -> geq B v -> lt v' v = true -> geq B v'.
Proof.
  intros _ GB L. eapply Forall_impl; [|exact GB]. intros e He. cbn beta in *.
  destruct (lt (key e) v') eqn:E; auto. rewrite (trans W E L) in He. discriminate.
Qed.

Lemma count_loop_ok b p s es base size : mem b (p ++ LVs (keys es) ++ s) -> pincr es -> base = length p -> size = length es ->
  forall ws A B n, pincr (rev ws) -> es = A ++ B -> (forall w, In w ws -> geq B (key w)) ->
  count_loop lt eqb b base size (length A) n (keys ws) = Ok (n + absent es (rev ws)).
Proof.
  intros M I Eb Es. induction ws as [|w ws IH]; intros A B n Iw E G; simpl.
  - unfold absent. simpl. f_equal. lia.
  - simpl in Iw. apply strong_app in Iw. destruct Iw as (Iw & _ & Lw).
    assert (IA : pincr A) by (subst es; apply strong_app in I; tauto).
    destruct (psplit T (key w) IA) as (A1 & A2 & EA & LA & GA).
    erewrite pfind with (A := A1) (B := A2) (s := LVs (keys B) ++ s); eauto.
    2:{ eapply mem_cast; [exact M|]. rewrite E, EA, !map_app. lapp. auto. }
    2:{ subst A. len. }
    cbn [bind].
    assert (GAB : geq (A2 ++ B) (key w)) by (apply Forall_app; split; auto; apply G; simpl; auto).
    assert (E' : es = A1 ++ (A2 ++ B)) by (subst; lapp; auto).
    assert (C : (if length A1 =? size then Ok true else y <- rd b (base + length A1) ;; Ok (negb (eqb y (key w)))) =
                Ok (negb (present es (key w)))).
    { assert (C : (if length A1 =? size then Ok false else y <- rd b (base + length A1) ;; Ok (eqb y (key w))) = Ok (present es (key w))).
      { pose proof M as M0. rewrite E' in M0. pose proof I as I0. rewrite E' in I0. rewrite E'.
        eapply check_present; eauto. rewrite Es, E'. len. }
      destruct (length A1 =? size); [injection C as <-; auto|].
      destruct (rd b (base + length A1)); simpl in *; try discriminate. injection C as <-. auto. }
    rewrite C. cbn [bind]. rewrite IH with (B := A2 ++ B); auto.
    + f_equal. unfold absent. rewrite filter_app, app_length. simpl. destruct (present es (key w)); simpl; lia.
    + intros w' Hw'. eapply less_weaken with (A := A1) (v := key w); eauto. apply Lw; simpl; auto. apply in_rev in Hw'. auto.
Qed.

(** [all] is the inserted range; [rws] what is left of it, last first. *)
Lemma insert_loop_ok (all : list P) :
  (forall k w nLeft A B C x p' s', nth_error all k = Some w -> RX p' s' (map Some (A ++ B) ++ repeat None (S nLeft) ++ map Some C) x ->
      oks (cb_ev cb (EInsertN (S nLeft) k (length A) (length A + length B)) x)
          (RX p' s' (map Some A ++ repeat None nLeft ++ map Some (w :: B ++ C)))) ->
  forall rws b x p s A C nLeft,
  (exists done, all = rev rws ++ done) -> pincr (rev rws) -> pincr (A ++ C) ->
  (forall w c, In w rws -> In c C -> lt (key w) (key c) = true) ->
  length (fold_right pinsert (A ++ C) (rev rws)) = length (A ++ C) + nLeft ->
  mem b (p ++ LVs (keys A) ++ repeat LN nLeft ++ LVs (keys C) ++ s) ->
  RX p s (map Some A ++ repeat None nLeft ++ map Some C) x ->
  oks (insert_loop chk triv lt eqb cb b x (length p) (length A) nLeft (keys rws))
      (fun r => mem (fst r) (p ++ LVs (keys (fold_right pinsert (A ++ C) (rev rws))) ++ s) /\
                RX p s (map Some (fold_right pinsert (A ++ C) (rev rws))) (snd r)).
Proof.
  intros HE. induction rws as [|w rws IH]; intros b x p s A C nLeft (done & Ed) Iw I LC Len M R.
  - simpl in *. apply oks_ok. assert (nLeft = 0) by lia. subst. simpl in *. rewrite !map_app in *.
    split; auto. eapply mem_cast; [exact M|]. lapp. auto.
  - simpl rev in *. simpl map. cbn [insert_loop]. rewrite fold_right_app in *. simpl fold_right in *.
    apply strong_app in Iw. destruct Iw as (Iw & _ & Lw).
    pose proof I as I'. apply strong_app in I'. destruct I' as (IA & IC & LAC).
    destruct (psplit T (key w) IA) as (A1 & A2 & EA & LA & GA).
    assert (MA : mem b (p ++ LVs (keys (A1 ++ A2)) ++ repeat LN nLeft ++ LVs (keys C) ++ s)) by (rewrite <- EA; exact M).
    erewrite pfind with (A := A1) (B := A2); eauto. 2:{ subst A; len. }
    cbn [bind].
    erewrite check_present with (B := A2); eauto; try (rewrite <- EA; auto). 2:{ subst A; len. }
    cbn [bind].
    assert (PC : present C (key w) = false).
    { clear -LC T. induction C as [|c C IH]; simpl; auto. rewrite (lt_neq' T); simpl.
      - apply IH. intros. apply LC; simpl in *; auto.
      - apply LC; simpl; auto. }
    destruct (present A (key w)) eqn:Pr.
    + rewrite (pinsert_present T) in * by (auto; rewrite present_app, Pr; auto).
      apply IH; auto.
      * exists (w :: done). rewrite Ed. lapp. auto.
      * intros. apply LC; simpl; auto.
    + assert (GA2 : Forall (fun e => lt (key w) (key e) = true) A2).
      { rewrite EA, present_app, (present_less T LA) in Pr. simpl in Pr. clear -T Pr GA. induction GA as [|e B H GB IH]; constructor.
        - simpl in Pr. apply orb_false_iff in Pr. apply (ge_neq T); tauto.
        - simpl in Pr. apply orb_false_iff in Pr. tauto. }
      assert (EI : pinsert w (A ++ C) = A1 ++ (w :: A2 ++ C)).
      { rewrite EA, <- app_assoc, pinsert_less by auto. f_equal. apply (pinsert_absent T).
        apply Forall_app. split; auto. apply Forall_forall. intros c Hc. apply LC; simpl; auto. }
      rewrite EI in *.
      assert (I2 : pincr (A1 ++ w :: A2 ++ C)) by (rewrite <- EI; apply (pinsert_incr T); auto).
      destruct nLeft as [|nLeft].
      { exfalso. rewrite (pinserts_length T) in Len by auto. rewrite EA in Len. revert Len. len. }
      eapply oks_bind.
      { eapply (@shiftUp_ok V chk triv b p (keys A1) (keys A2) (S nLeft) (LVs (keys C) ++ s)); eauto.
        - eapply mem_cast; [exact MA|]. rewrite !map_app. lapp. auto.
        - len.
        - subst A; len. }
      intros b1 M1. unfold sub_ix. replace (1 <=? length p + length A1 + S nLeft) with true by (symmetry; apply Nat.leb_le; lia).
      cbn [bind].
      eapply oks_bind.
      { eapply construct_ok with (p := p ++ LVs (keys A1) ++ repeat LN nLeft) (c := LN) (s := LVs (keys A2) ++ LVs (keys C) ++ s).
        - eapply mem_cast; [exact M1|]. rewrite repeat_snoc. lapp. auto.
        - len.
        - simpl; auto. }
      intros b2 M2. eapply oks_bind.
      { rewrite map_length. replace (length A) with (length A1 + length A2) by (subst A; len).
        eapply HE.
        - rewrite Ed, <- app_assoc, nth_error_app2 by len. rewrite rev_length, Nat.sub_diag. reflexivity.
        - rewrite <- EA. exact R. }
      intros x2 R2. replace (S nLeft - 1) with nLeft by lia. 
      replace (A1 ++ w :: A2 ++ C) with (A1 ++ (w :: A2 ++ C)) in * by auto.
      apply IH; auto.
      * exists (w :: done). rewrite Ed. lapp. auto.
      * intros w' c Hw' [<-|Hc]; [apply Lw; simpl; auto; apply in_rev in Hw'; auto|].
        assert (lt (key w) (key c) = true).
        { apply in_app_or in Hc. destruct Hc as [Hc|Hc]; [rewrite Forall_forall in GA2; auto|apply LC; simpl; auto]. }
        eapply (trans W); eauto. apply Lw; simpl; auto. apply in_rev in Hw'; auto.
      * rewrite EA in Len. revert Len. len.
      * eapply mem_cast; [exact M2|]. simpl. rewrite !map_app. lapp. auto.
Qed.

Lemma inserts_ok b x p s es ws base size : mem b (p ++ LVs (keys es) ++ s) -> pincr es -> pincr ws -> base = length p -> size = length es ->
  (es = [] -> forall k w x p' s' A g, nth_error ws k = Some w -> length A = k -> RX p' s' (map Some A ++ None :: g) x ->
      oks (cb_ev cb (ESet k k) x) (RX p' s' (map Some (A ++ [w]) ++ g))) ->
  (forall k w nLeft A B C x p' s', nth_error ws k = Some w -> RX p' s' (map Some (A ++ B) ++ repeat None (S nLeft) ++ map Some C) x ->
      oks (cb_ev cb (EInsertN (S nLeft) k (length A) (length A + length B)) x)
          (RX p' s' (map Some A ++ repeat None nLeft ++ map Some (w :: B ++ C)))) ->
  let n := absent es ws in
  exists k, inserts chk triv lt eqb cb b x base size (keys ws) = bind (cb_inc cb n (b, x)) k /\
  forall r, inc_post es n r ->
    oks (k r) (fun r' => ins_post (fold_right pinsert es ws) (fst (fst r')) (snd (fst r')) /\ snd r' = n).
Proof.
  intros M I Iw Eb Es HS HN n. unfold inserts. destruct (Nat.eqb_spec size 0) as [E0|E0].
  - destruct es; [|simpl in *; lia].
    assert (En : n = length ws) by apply absent_nil. rewrite map_length, <- En.
    eexists. split; [reflexivity|].
    intros [[b' x'] base'] (p' & s' & Eb' & M' & R').
    eapply oks_mono.
    + rewrite Eb'. eapply set_loop_ok with (HE := ws) (A := []) (ws := ws) (p := p') (s := s'); auto.
      * rewrite <- En. exact M'.
      * rewrite <- En. exact R'.
    + intros [[b2 x2] k2] (M2 & R2 & E2). cbn in *. rewrite (pinserts_nil T) by auto. split; [|congruence].
      exists p', s'. auto.
  - rewrite <- map_rev. subst size.
    erewrite count_loop_ok with (ws := rev ws) (B := []); eauto; try (rewrite rev_involutive; auto).
    2:{ rewrite app_nil_r. auto. }
    cbn [bind]. simpl plus. fold n. eexists. split; [reflexivity|].
    intros [[b' x'] base'] (p' & s' & Eb' & M' & R').
    assert (L : length (fold_right pinsert es ws) = length es + n) by (apply (pinserts_length T); auto).
    destruct (Nat.eqb_spec n 0) as [N0|N0].
    + apply oks_ok. cbn. split; auto. rewrite N0 in *. simpl in *. rewrite app_nil_r in R'.
      rewrite (pinserts_zero T) by auto. exists p', s'. auto.
    + eapply oks_bind.
      * rewrite Eb'. apply insert_loop_ok with (all := ws) (A := es) (C := []) (p := p') (s := s').
        -- exact HN.
        -- exists []. rewrite rev_involutive, app_nil_r. auto.
        -- rewrite rev_involutive. auto.
        -- rewrite app_nil_r. auto.
        -- intros ? ? ? [].
        -- rewrite rev_involutive, app_nil_r. auto.
        -- exact M'.
        -- simpl. rewrite app_nil_r. auto.
      * rewrite rev_involutive, app_nil_r. intros [b2 x2] [M2 R2]. apply oks_ok. cbn in *. split; auto. exists p', s'. auto.
Qed.
(** remove of one element *)
Lemma remove_ok b x p s es v base size : mem b (p ++ LVs (keys es) ++ s) -> pincr es -> base = length p -> size = length es ->
  RX p s (map Some es) x ->
  (forall A e B x', es = A ++ e :: B -> key e = v -> RX p s (map Some es) x' ->
     oks (cb_ev cb (ERemove (length A)) x') (RX p s (map Some (A ++ B) ++ [None]))) ->
  let n := if present es v then 1 else 0 in
  oks (remove chk triv lt eqb cb b x base size v)
    (fun r => mem (fst (fst r)) (p ++ LVs (keys (pdiff es [v])) ++ repeat LN n ++ s) /\
              RX p s (map Some (pdiff es [v]) ++ repeat None n) (snd (fst r)) /\ snd r = present es v /\
              length (pdiff es [v]) + n = length es).
Proof.
  intros M I Eb Es R HE n. unfold remove.
  destruct (psplit T v I) as (A & B & E & LA & GB).
  assert (Ls : size = length A + length B) by (subst es; rewrite app_length in Es; auto).
  assert (Pr : present es v = match B with [] => false | e :: _ => eqb (key e) v end).
  { rewrite E, present_app, (present_less T LA). simpl. destruct B as [|e B]; auto.
    apply (present_head T); [|inversion GB; auto]. rewrite E in I. apply strong_app in I. tauto. }
  assert (ND : present es v = false -> pdiff es [v] = es).
  { intros H. apply (pdiff_none T). intros e He [Hk|[]].
    assert (present es v = true); [|congruence]. apply (present_in key T). subst v. apply in_map. auto. }
  rewrite E in M. erewrite pfind; eauto. cbn [bind]. rewrite <- E in M.
  destruct (Nat.eqb_spec (length A) size) as [EA|EA].
  - destruct B; [|simpl in *; lia]. unfold n. rewrite Pr, ND by auto. apply oks_ok. cbn. rewrite app_nil_r. repeat split; auto; lia.
  - destruct B as [|e B]; [simpl in *; lia|]. rewrite (@prd b p s A e B (base + length A)); [|rewrite <- E; exact M|lia].
    cbn [bind]. unfold n. rewrite Pr in *. destruct (eqb (key e) v) eqn:Ek; cbn [negb].
    + apply (eqb_true T) in Ek.
      assert (ED : pdiff es [v] = A ++ B).
      { rewrite E, pdiff_app. rewrite (pdiff_none T (es := A)).
        - f_equal. unfold SortedProofs2.pdiff. simpl. rewrite Ek, (eqb_refl T). simpl.
          change (pdiff B [v] = B). apply (pdiff_none T). intros f Hf [Hk|[]].
          rewrite E in I. apply strong_app in I. destruct I as (_ & I & _). inversion I; subst.
          rewrite Forall_forall in H2. specialize (H2 f Hf). cbn beta in H2. rewrite Hk, (irr W) in H2. discriminate.
        - intros f Hf [Hk|[]]. rewrite Forall_forall in LA. specialize (LA f Hf). cbn beta in LA.
          rewrite Hk, (irr W) in LA. discriminate. }
      eapply oks_bind.
      * eapply (@erase_ok V chk triv b p (keys A) [key e] (keys B) s); auto.
        -- eapply mem_cast; [exact M|]. rewrite E, !map_app. simpl. lapp. auto.
        -- len.
        -- len.
      * intros b2 M2. eapply oks_bind; [eapply HE; eauto|]. intros x2 R2. apply oks_ok. cbn in *. rewrite ED.
        repeat split; auto; [|rewrite E; len]. eapply mem_cast; [exact M2|]. rewrite !map_app. lapp. auto.
    + rewrite ND by auto. apply oks_ok. cbn. rewrite app_nil_r. repeat split; auto; lia.
Qed.

Lemma seek_ok b p s base : base = length p -> forall vs pq R size pos, mem b (p ++ pq ++ LVs (keys R) ++ s) ->
  pincr R -> StronglySorted (fun x y => lt x y = true) vs -> pos = length pq -> size = pos + length R ->
  oks (seek lt eqb b base size pos vs) (fun r => length (snd r) <= length vs /\ incl (snd r) vs /\
     StronglySorted (fun x y => lt x y = true) (snd r) /\
     match snd r with
     | [] => forall e, In e R -> ~ In (key e) vs
     | v :: rest => exists B e R', R = B ++ e :: R' /\ key e = v /\ fst r = pos + length B /\
           (forall f, In f B -> ~ In (key f) vs) /\ (forall f, In f (e :: R') -> In (key f) vs <-> In (key f) (snd r))
     end).
Proof.
  intros ->. induction vs as [|v vs IH]; intros pq R size pos M I Iv -> ->; simpl.
  - apply oks_ok. cbn. repeat split; auto. intros ? [].
  - destruct (psplit T v I) as (A & B & -> & LA & GB). inversion Iv; subst.
    assert (NA : forall f, In f A -> ~ In (key f) (v :: vs)).
    { intros f Hf Hk. rewrite Forall_forall in LA. specialize (LA f Hf). cbn beta in LA.
      destruct Hk as [Hk|Hk].
      - rewrite Hk, (irr W) in LA. discriminate.
      - rewrite Forall_forall in H2. specialize (H2 _ Hk). cbn beta in H2.
        assert (X0 := trans W LA H2). rewrite (irr W) in X0. discriminate. }
    erewrite pfind with (p := p ++ pq) (A := A) (B := B) (s := s); auto.
    2:{ eapply mem_cast; [exact M|]. lapp. auto. } 2:{ len. } 2:{ len. }
    cbn [bind]. destruct (Nat.eqb_spec (length pq + length A) (length pq + length (A ++ B))) as [EA|EA].
    + destruct B; [|revert EA; len]. apply oks_ok. cbn. repeat split; auto; [lia|intros ? []|constructor|].
      rewrite app_nil_r. auto.
    + destruct B as [|e B]; [revert EA; len|].
      erewrite prd with (p := p ++ pq) (A := A) (e := e) (B := B) (s := s).
      2:{ eapply mem_cast; [exact M|]. lapp. auto. } 2:{ len. }
      cbn [bind]. destruct (eqb (key e) v) eqn:Ek.
      * apply (eqb_true T) in Ek. apply oks_ok. cbn. repeat split; auto; [apply incl_refl|]. exists A, e, B. repeat split; auto.
      * apply strong_app in I. destruct I as (_ & IB & _).
        assert (NV : forall f, In f (e :: B) -> key f <> v).
        { intros f Hf Hk. pose proof (present_head T IB (v := v)) as Ph. rewrite Ek in Ph.
          assert (present (e :: B) v = true); [apply (present_in key T); subst v; apply in_map; auto|].
          rewrite Ph in H; [discriminate|]. inversion GB; auto. }
        eapply oks_mono.
        -- apply IH with (pq := pq ++ LVs (keys A)) (R := e :: B); auto.
           ++ eapply mem_cast; [exact M|]. rewrite !map_app. lapp. auto.
           ++ len.
           ++ len.
        -- intros [np fd] (L & Inc & Ifd & Hfd). cbn [fst snd] in *. repeat split; auto.
           ++ intros z Hz. simpl. auto.
           ++ destruct fd as [|v' rest].
              ** intros f Hf. apply in_app_or in Hf. destruct Hf as [Hf|Hf]; [apply NA; auto|].
                 intros [Hk|Hk]; [eapply NV; eauto|eapply Hfd; eauto].
              ** destruct Hfd as (B1 & e1 & R1 & EB & Ek1 & Enp & N1 & N2). exists (A ++ B1), e1, R1.
                 rewrite EB. repeat split; auto.
                 --- lapp. auto.
                 --- rewrite Enp. len.
                 --- intros f Hf. apply in_app_or in Hf. destruct Hf as [Hf|Hf]; [apply NA; auto|].
                     intros [Hk|Hk]; [|eapply N1; eauto]. apply (NV f); [rewrite EB; apply in_or_app; auto|auto].
                 --- intros [Hk|Hk]; [exfalso; apply (NV f); auto; rewrite EB; apply in_or_app; auto|apply N2; auto].
Qed.

Definition gaps (n : nat) : list (option P) := repeat None n.

Lemma remove_loop_ok p s base size : base = length p ->
  (forall A B e n x', RX p s (map Some A ++ gaps n ++ map Some (e :: B)) x' ->
     forall B1 B2, B = B1 ++ B2 ->
     oks (cb_ev cb (ERemoveN (S n) (length A + n) (length A + n + 1 + length B1)) x')
         (RX p s (map Some (A ++ B1) ++ gaps (S n) ++ map Some B2))) ->
  forall fuel b x vs v A e R n g, length (v :: vs) <= fuel ->
  mem b (p ++ LVs (keys A) ++ g ++ LVs (keys (e :: R)) ++ s) -> Forall live g -> length g = n ->
  pincr (e :: R) -> StronglySorted (fun x y => lt x y = true) (v :: vs) -> key e = v ->
  size = length A + n + 1 + length R ->
  RX p s (map Some A ++ gaps n ++ map Some (e :: R)) x ->
  oks (remove_loop chk triv lt eqb cb fuel b x base size n (length A + n) (v :: vs))
      (fun r => exists g', mem (fst (fst r)) (p ++ LVs (keys (A ++ pdiff R vs)) ++ g' ++ s) /\ Forall live g' /\
           length g' = snd r /\ length A + length (pdiff R vs) + snd r = size /\
           RX p s (map Some (A ++ pdiff R vs) ++ gaps (snd r)) (snd (fst r))).
Proof.
  intros -> HE. induction fuel as [|fuel IH]; intros b x vs v A e R n g F M Lg En I Iv Ek Es Rx; [simpl in F; lia|].
  cbn [remove_loop]. inversion Iv; subst v. 
  assert (NE : ~ In (key e) vs).
  { intros Hin. rewrite Forall_forall in H2. specialize (H2 _ Hin). cbn beta in H2. rewrite (irr W) in H2. discriminate. }
  eapply oks_bind.
  { apply seek_ok with (p := p) (pq := LVs (keys A) ++ g) (R := e :: R) (s := s) (vs := vs); auto.
    - eapply mem_cast; [exact M|]. lapp. auto.
    - subst n. len.
    - subst. simpl. lia. }
  intros [np fd] (Lfd & Inc & Ifd & Hfd). cbn [fst snd] in *.
  destruct fd as [|v' rest].
  - assert (ED : pdiff R vs = R) by (apply (pdiff_none T); intros; apply Hfd; simpl; auto).
    eapply oks_bind.
    { eapply (@shiftDown_ok V chk triv b (p ++ LVs (keys A)) (g ++ [LV (key e)]) (keys R) s); auto.
      - eapply mem_cast; [exact M|]. simpl. lapp. auto.
      - apply Forall_app. split; auto. repeat constructor. discriminate.
      - rewrite app_length, En. simpl. lia.
      - len.
      - len.
      - len. }
    intros b2 (ws & Lw & Fw & M2). eapply oks_bind.
    { replace size with (length A + n + 1 + length R) at 1 by auto. replace (n + 1) with (S n) by lia.
      eapply HE with (B2 := []); [exact Rx|]. rewrite app_nil_r; auto. }
    intros x2 R2. rewrite Nat.eqb_refl. apply oks_ok. cbn [fst snd]. exists ws. rewrite ED.
    replace (n + 1) with (S n) in * by lia.
    repeat split; auto; try lia.
    + eapply mem_cast; [exact M2|]. rewrite !map_app. lapp. auto.
    + simpl in R2. rewrite app_nil_r in R2. auto.
  - destruct Hfd as (B & e2 & R2 & ER & Ek2 & Enp & NB & NR).
    destruct B as [|e' B].
    { simpl in ER. injection ER as <- <-. exfalso. apply NE. rewrite Ek2. apply Inc. simpl; auto. }
    simpl in ER. injection ER as <- ER. subst R.
    assert (ED : pdiff (B ++ e2 :: R2) vs = B ++ pdiff R2 rest).
    { rewrite pdiff_app. rewrite (pdiff_none T (es := B)).
      - f_equal. rewrite (pdiff_ext T (es := e2 :: R2) (vs := vs) (vs' := v' :: rest)).
        + unfold SortedProofs2.pdiff at 1. simpl. rewrite Ek2, (eqb_refl T). simpl.
          change (pdiff R2 (v' :: rest) = pdiff R2 rest). apply (pdiff_ext T). intros f Hf. simpl. split; auto.
          intros [Hk|Hk]; auto. exfalso. destruct (StronglySorted_inv I) as [I1 _]. apply strong_app in I1. destruct I1 as (_ & I1 & _).
          destruct (StronglySorted_inv I1) as [_ I2]. rewrite Forall_forall in I2. specialize (I2 f Hf). cbn beta in I2.
          rewrite Ek2, Hk, (irr W) in I2. discriminate.
        + intros f Hf. apply NR. auto.
      - intros f Hf. apply NB. simpl; auto. }
    eapply oks_bind.
    { eapply (@shiftDown_ok V chk triv b (p ++ LVs (keys A)) (g ++ [LV (key e)]) (keys B) (LVs (keys (e2 :: R2)) ++ s)); auto.
      - eapply mem_cast; [exact M|]. simpl. rewrite !map_app. simpl. lapp. auto.
      - apply Forall_app. split; auto. repeat constructor. discriminate.
      - rewrite app_length, En. simpl. lia.
      - len.
      - len.
      - len. }
    intros b2 (ws & Lw & Fw & M2). eapply oks_bind.
    { replace np with (length A + n + 1 + length B) at 1 by len. replace (n + 1) with (S n) by lia.
      eapply HE; [exact Rx|]. reflexivity. }
    intros x2 R3. destruct (Nat.eqb_spec np size) as [X0|_]; [exfalso; revert Es Enp; len|].
    replace np with (length (A ++ B) + (n + 1)) by len.
    eapply oks_mono.
    + apply IH with (e := e2) (R := R2) (g := ws); auto.
      * simpl in *. lia.
      * eapply mem_cast; [exact M2|]. rewrite !map_app. lapp. auto.
      * destruct (StronglySorted_inv I) as [I1 _]. apply strong_app in I1. tauto.
      * subst size. len.
      * replace (n + 1) with (S n) by lia. exact R3.
    + intros [[b3 x3] k3] (g' & M3 & Fg & Lg' & L3 & R4). cbn [fst snd] in *. exists g'. rewrite ED.
      repeat split; auto.
      * eapply mem_cast; [exact M3|]. rewrite !map_app. lapp. auto.
      * rewrite app_length in *. lia.
      * rewrite app_assoc. auto.
Qed.

(** remove of a sorted range *)
Lemma removes_ok b x p s es vs base size : mem b (p ++ LVs (keys es) ++ s) -> pincr es ->
  StronglySorted (fun x y => lt x y = true) vs -> base = length p -> size = length es ->
  RX p s (map Some es) x ->
  (forall A B e n x', RX p s (map Some A ++ gaps n ++ map Some (e :: B)) x' ->
     forall B1 B2, B = B1 ++ B2 ->
     oks (cb_ev cb (ERemoveN (S n) (length A + n) (length A + n + 1 + length B1)) x')
         (RX p s (map Some (A ++ B1) ++ gaps (S n) ++ map Some B2))) ->
  oks (removes chk triv lt eqb cb b x base size vs)
    (fun r => mem (fst (fst r)) (p ++ LVs (keys (pdiff es vs)) ++ repeat LN (snd r) ++ s) /\
              RX p s (map Some (pdiff es vs) ++ gaps (snd r)) (snd (fst r)) /\ length (pdiff es vs) + snd r = length es).
Proof.
  intros M I Iv Eb Es Rx HE. unfold removes. eapply oks_bind.
  { apply seek_ok with (p := p) (pq := []) (R := es) (s := s) (vs := vs); auto. }
  intros [np fd] (Lfd & Inc & Ifd & Hfd). cbn [fst snd] in *. destruct fd as [|v rest].
  - apply oks_ok. cbn. rewrite (pdiff_none T) by auto. rewrite app_nil_r. repeat split; auto.
  - destruct Hfd as (B & e & R & ER & Ek & Enp & NB & NR). simpl in Enp. subst np.
    assert (ED : pdiff es vs = B ++ pdiff R rest).
    { rewrite ER, pdiff_app. rewrite (pdiff_none T (es := B)) by auto. f_equal.
      rewrite (pdiff_ext T (es := e :: R) (vs := vs) (vs' := v :: rest)) by (intros f Hf; apply NR; auto).
      unfold SortedProofs2.pdiff at 1. simpl. rewrite Ek, (eqb_refl T). simpl.
      change (pdiff R (v :: rest) = pdiff R rest). apply (pdiff_ext T). intros f Hf. simpl. split; auto.
      intros [Hk|Hk]; auto. exfalso. rewrite ER in I. apply strong_app in I. destruct I as (_ & I & _).
      destruct (StronglySorted_inv I) as [_ I2]. rewrite Forall_forall in I2. specialize (I2 f Hf). cbn beta in I2.
      rewrite Ek, Hk, (irr W) in I2. discriminate. }
    eapply oks_bind.
    { replace (length B) with (length B + 0) by lia.
      eapply remove_loop_ok with (p := p) (s := s) (g := []) (e := e) (R := R); auto.
      - eapply mem_cast; [exact M|]. rewrite ER, !map_app. simpl. lapp. auto.
      - rewrite ER in I. apply strong_app in I. tauto.
      - rewrite Es, ER. len.
      - simpl. rewrite ER, map_app in Rx. exact Rx. }
    intros [[b2 x2] k2] (g' & M2 & Fg & Lg & L2 & R2). cbn [fst snd] in *.
    eapply oks_bind.
    { apply oks_for_up with (I := fun k b => mem b (p ++ LVs (keys (pdiff es vs)) ++ repeat LN (k - (size - k2)) ++ skipn (k - (size - k2)) g' ++ s)).
      - rewrite Nat.sub_diag. simpl. rewrite ED. exact M2.
      - intros k b3 Hk M3. set (j := k - (size - k2)) in *.
        destruct (split_nth g' (n:=j)) as (g1 & c & g2 & -> & Hg1); [lia|].
        rewrite skipn_app_exact in M3 by auto.
        assert (Lc : live c) by (rewrite Forall_app in Fg; destruct Fg as [_ Fg]; inversion Fg; auto).
        eapply oks_mono.
        + eapply destroy1_ok with (p := p ++ LVs (keys (pdiff es vs)) ++ repeat LN j) (c := c) (s := g2 ++ s); auto.
          * eapply mem_cast; [exact M3|]. lapp; auto.
          * rewrite ED. len.
        + intros b4 M4. eapply mem_cast; [exact M4|].
          replace (g1 ++ c :: g2) with ((g1 ++ [c]) ++ g2) by (lapp; auto).
          replace (k + 1 - (size - k2)) with (S j) by lia.
          rewrite skipn_app_exact by len.
          rewrite repeat_snoc. lapp; auto. }
    intros b3 M3. apply oks_ok. cbn [fst snd]. rewrite ED in *. repeat split; auto.
    + replace (size - k2 + k2 - (size - k2)) with k2 in M3 by lia. rewrite skipn_all2 in M3 by lia. exact M3.
    + rewrite app_length. lia.
Qed.
End Ops.
