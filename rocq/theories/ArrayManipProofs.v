(** What the functions of src/arrayManipulation.hpp do to the logical contents of a buffer. *)
From Coq Require Import List Arith ZArith Lia Bool.
From Verif Require Import Base BaseProofs Mem MemProofs ArrayManip.
Import ListNotations.
Set Implicit Arguments.

Section AMP.
Variable V : Type.
Variable chk triv : bool.
Notation mem := (@mem V triv).
Notation LVs := (map (@LV V)).

Lemma destroy_ok b p m s base n :
  mem b (p ++ m ++ s) -> base = length p -> n = length m -> Forall live m ->
  oks (destroy triv b base n) (fun b' => mem b' (p ++ repeat LN n ++ s)).
Proof.
  intros H -> -> L. unfold destroy.
  eapply oks_mono.
  - apply oks_for_up with
      (I := fun k b => mem b (p ++ repeat LN k ++ skipn k m ++ s)).
    + simpl. exact H.
    + intros k b' Hk M. 
      destruct (split_nth m (n:=k)) as (m1 & x & m2 & -> & Hm1); [lia|].
      rewrite skipn_app_exact in M by auto.
      assert (Lx : live x) by (rewrite Forall_app in L; destruct L as [_ L]; inversion L; auto).
      eapply oks_mono.
      * eapply destroy1_ok with (p := p ++ repeat LN k) (c := x) (s := m2 ++ s); auto.
        -- eapply mem_cast; [exact M|]. lapp; auto.
        -- len.
      * intros b2 M2. eapply mem_cast; [exact M2|]. 
        replace (m1 ++ x :: m2) with ((m1 ++ [x]) ++ m2) by (lapp; auto).
        rewrite skipn_app_exact by len.
        replace (k + 1) with (S k) by lia. rewrite repeat_snoc. lapp; auto.
  - intros b' M. simpl in M. rewrite skipn_all2 in M by lia. exact M.
Qed.

Lemma uninitializedCopy_ok vs : forall b p m s base,
  mem b (p ++ m ++ s) -> base = length p -> length vs = length m -> Forall free m ->
  oks (uninitializedCopy triv vs b base) (fun b' => mem b' (p ++ LVs vs ++ s)).
Proof.
  induction vs as [|v vs IH]; intros b p m s base H -> E F; simpl.
  - destruct m; [|discriminate]. apply oks_ok. exact H.
  - destruct m as [|c m]; [discriminate|]. inversion F; subst.
    eapply oks_bind; [eapply construct_ok; eauto|].
    intros b' M. eapply oks_mono.
    + eapply IH with (p := p ++ [LV v]) (m := m) (s := s); auto.
      * eapply mem_cast; [exact M|]. lapp; auto.
      * len.
    + intros b2 M2. eapply mem_cast; [exact M2|]. lapp; auto.
Qed.

Lemma uninitializedMove_ok d pd md sd s ps vs ss n based bases :
  mem d (pd ++ md ++ sd) -> mem s (ps ++ LVs vs ++ ss) ->
  based = length pd -> bases = length ps -> length md = n -> length vs = n -> Forall free md ->
  oks (uninitializedMove triv d based n s bases)
      (fun r => mem (fst r) (pd ++ LVs vs ++ sd) /\ mem (snd r) (ps ++ repeat LM n ++ ss)).
Proof.
  intros Hd Hs -> -> Ed Es F. unfold uninitializedMove.
  eapply oks_mono.
  - apply oks_for_up with
      (I := fun k ds => mem (fst ds) (pd ++ LVs (firstn k vs) ++ skipn k md ++ sd) /\
                        mem (snd ds) (ps ++ repeat LM k ++ LVs (skipn k vs) ++ ss)).
    + simpl. auto.
    + intros k [d' s'] Hk [Md Ms]. simpl in Md, Ms.
      destruct (split_nth vs (n:=k)) as (v1 & x & v2 & -> & Hv1); [lia|].
      destruct (split_nth md (n:=k)) as (m1 & y & m2 & -> & Hm1); [lia|].
      rewrite skipn_app_exact in Md by auto. rewrite skipn_app_exact in Ms by auto.
      rewrite firstn_app_exact in Md by auto. simpl map in Ms.
      assert (Fy : free y) by (rewrite Forall_app in F; destruct F as [_ F]; inversion F; auto).
      eapply oks_bind.
      * eapply take_ok with (p := ps ++ repeat LM k) (v := x) (s := LVs v2 ++ ss).
        -- eapply mem_cast; [exact Ms|]. lapp; auto.
        -- len.
      * intros [c s2] [Ec Ms2]. simpl in Ec, Ms2. subst c.
        eapply oks_bind.
        -- eapply place_ok with (p := pd ++ LVs v1) (c := y) (s := m2 ++ sd) (lx := LV x); simpl; auto.
           ++ eapply mem_cast; [exact Md|]. lapp; auto.
           ++ len.
        -- intros d2 Md2. apply oks_ok. simpl. 
           replace (v1 ++ x :: v2) with ((v1 ++ [x]) ++ v2) by (lapp; auto).
           replace (m1 ++ y :: m2) with ((m1 ++ [y]) ++ m2) by (lapp; auto).
           rewrite !skipn_app_exact by len. rewrite firstn_app_exact by len.
           split.
           ++ eapply mem_cast; [exact Md2|]. rewrite map_app. lapp; auto.
           ++ eapply mem_cast; [exact Ms2|]. replace (k + 1) with (S k) by lia. rewrite repeat_snoc. lapp; auto.
  - intros [d' s'] [Md Ms]. simpl in *. rewrite firstn_all2 in Md by lia.
    rewrite skipn_all2 in Md by lia. rewrite skipn_all2 in Ms by lia. auto.
Qed.

Lemma uninitializedShiftDown_ok b p vs s size amount base :
  mem b (p ++ repeat LN amount ++ LVs vs ++ s) ->
  base = length p + amount -> size = length vs ->
  oks (uninitializedShiftDown triv b base size amount)
      (fun b' => mem b' (p ++ LVs vs ++ repeat LN amount ++ s)).
Proof.
  intros H -> ->. unfold uninitializedShiftDown.
  destruct (Nat.eqb_spec amount 0) as [->|Hn].
  - apply oks_ok. simpl in *. exact H.
  - eapply oks_mono.
    + apply oks_for_up with
        (I := fun k b => mem b (p ++ LVs (firstn k vs) ++ repeat LN amount ++ LVs (skipn k vs) ++ s)).
      * simpl. exact H.
      * intros k b' Hk M.
        destruct (split_nth vs (n:=k)) as (v1 & x & v2 & -> & Hv1); [lia|].
        rewrite skipn_app_exact in M by auto. rewrite firstn_app_exact in M by auto.
        rewrite sub_ix_ok by lia. simpl bind.
        destruct amount as [|a]; [lia|].
        eapply oks_bind.
        -- eapply mconstruct_down with (p := p ++ LVs v1) (c := LN) (m := repeat LN a) (v := x) (s := LVs v2 ++ s).
           ++ eapply mem_cast; [exact M|]. lapp; auto.
           ++ len.
           ++ len.
           ++ simpl; auto.
        -- intros b2 M2. eapply oks_mono.
           ++ eapply destroy1_ok with (p := p ++ LVs v1 ++ LV x :: repeat LN a) (c := LM) (s := LVs v2 ++ s).
              ** eapply mem_cast; [exact M2|]. lapp; auto.
              ** len.
              ** discriminate.
           ++ intros b3 M3. eapply mem_cast; [exact M3|].
              replace (v1 ++ x :: v2) with ((v1 ++ [x]) ++ v2) by (lapp; auto).
              rewrite skipn_app_exact, firstn_app_exact by len. rewrite map_app, repeat_snoc. lapp; auto.
    + intros b' M. simpl in M. rewrite skipn_all2, firstn_all2 in M by lia. exact M.
Qed.

Lemma uninitializedShiftUp_ok b p vs s size amount base :
  mem b (p ++ LVs vs ++ repeat LN amount ++ s) ->
  base = length p -> size = length vs ->
  oks (uninitializedShiftUp triv b base size amount)
      (fun b' => mem b' (p ++ repeat LN amount ++ LVs vs ++ s)).
Proof.
  intros H -> ->. unfold uninitializedShiftUp.
  destruct (Nat.eqb_spec amount 0) as [->|Hn].
  - apply oks_ok. simpl in *. exact H.
  - eapply oks_mono.
    + apply oks_for_down with
        (I := fun k b => mem b (p ++ LVs (firstn k vs) ++ repeat LN amount ++ LVs (skipn k vs) ++ s)).
      * rewrite skipn_all2, firstn_all2 by lia. exact H.
      * intros k b' Hk M.
        destruct (split_nth vs (n:=k)) as (v1 & x & v2 & -> & Hv1); [lia|].
        replace (v1 ++ x :: v2) with ((v1 ++ [x]) ++ v2) in M by (lapp; auto).
        rewrite skipn_app_exact in M by len. rewrite firstn_app_exact in M by len.
        destruct amount as [|a]; [lia|].
        eapply oks_bind.
        -- eapply mconstruct_up with (p := p ++ LVs v1) (c := LN) (m := repeat LN a) (v := x) (s := LVs v2 ++ s).
           ++ eapply mem_cast; [exact M|]. rewrite map_app, repeat_snoc. lapp; auto.
           ++ len.
           ++ len.
           ++ simpl; auto.
        -- intros b2 M2. eapply oks_mono.
           ++ eapply destroy1_ok with (p := p ++ LVs v1) (c := LM) (s := repeat LN a ++ LV x :: LVs v2 ++ s).
              ** eapply mem_cast; [exact M2|]. lapp; auto.
              ** len.
              ** discriminate.
           ++ intros b3 M3. eapply mem_cast; [exact M3|].
              rewrite skipn_app_exact, firstn_app_exact by len. lapp; auto.
    + intros b' M. simpl in M. exact M.
Qed.

Lemma construct_run_ok b p s v n start base :
  mem b (p ++ repeat LN n ++ s) -> base + start = length p ->
  oks (for_up n (fun i b => construct triv b (base + i) v) start b)
      (fun b' => mem b' (p ++ LVs (repeat v n) ++ s)).
Proof.
  intros H E. eapply oks_mono.
  - apply oks_for_up with
      (I := fun k b => mem b (p ++ LVs (repeat v (k - start)) ++ repeat LN (n - (k - start)) ++ s)).
    + rewrite Nat.sub_diag, Nat.sub_0_r. simpl. exact H.
    + intros k b' Hk M. remember (k - start) as j.
      replace (n - j) with (S (n - j - 1)) in M by lia. simpl repeat in M.
      eapply oks_mono.
      * eapply construct_ok with (p := p ++ LVs (repeat v j)) (c := LN) (s := repeat LN (n - j - 1) ++ s).
        -- eapply mem_cast; [exact M|]. lapp; auto.
        -- len.
        -- simpl; auto.
      * intros b2 M2. eapply mem_cast; [exact M2|].
        replace (k + 1 - start) with (S j) by lia. rewrite repeat_snoc, map_app.
        replace (n - S j) with (n - j - 1) by lia. lapp; auto.
  - intros b' M. simpl in M. replace (start + n - start) with n in M by lia.
    rewrite Nat.sub_diag in M. simpl in M. exact M.
Qed.

(** Growing resize. *)
Lemma resize_grow_ok b p vs n s base size newSize v :
  mem b (p ++ LVs vs ++ repeat LN n ++ s) -> base = length p -> size = length vs -> newSize = size + n ->
  oks (resize triv b base size newSize v)
      (fun b' => mem b' (p ++ LVs (vs ++ repeat v n) ++ s)).
Proof.
  intros H -> -> ->. unfold resize.
  replace (length vs - (length vs + n)) with 0 by lia. cbn [destroy for_up bind].
  replace (length vs + n - length vs) with n by lia.
  eapply oks_mono.
  - eapply construct_run_ok with (p := p ++ LVs vs) (s := s).
    + eapply mem_cast; [exact H|]. lapp; auto.
    + len.
  - intros b' M. eapply mem_cast; [exact M|]. rewrite map_app. lapp; auto.
Qed.

(** Shrinking resize. *)
Lemma resize_shrink_ok b p vs ws s base size newSize v :
  mem b (p ++ LVs (vs ++ ws) ++ s) -> base = length p -> size = length (vs ++ ws) -> newSize = length vs ->
  oks (resize triv b base size newSize v)
      (fun b' => mem b' (p ++ LVs vs ++ repeat LN (length ws) ++ s)).
Proof.
  intros H -> -> ->. unfold resize.
  eapply oks_bind.
  - eapply destroy_ok with (p := p ++ LVs vs) (m := LVs ws) (s := s); auto.
    + eapply mem_cast; [exact H|]. rewrite map_app. lapp; auto.
    + len.
    + len.
  - intros b1 M. replace (length vs - length (vs ++ ws)) with 0 by len. simpl for_up. apply oks_ok.
    eapply mem_cast; [exact M|]. replace (length (vs ++ ws) - length vs) with (length ws) by len. lapp; auto.
Qed.

Lemma shiftUp_ok b p xs ys n s base size index :
  mem b (p ++ LVs xs ++ LVs ys ++ repeat LN n ++ s) ->
  base = length p -> index = length xs -> size = length xs + length ys ->
  oks (shiftUp chk triv b base size index n)
      (fun b' => mem b' (p ++ LVs xs ++ repeat LN n ++ LVs ys ++ s)).
Proof.
  intros H -> -> ->. unfold shiftUp, check_insert_bounds.
  rewrite check_if_ok by (apply Nat.ltb_ge; lia). simpl bind.
  destruct (Nat.eqb_spec n 0) as [->|Hn].
  - apply oks_ok. simpl in *. exact H.
  - replace (length xs + length ys - length xs) with (length ys) by lia.
    set (g := fun k => Nat.min n (length ys - k)).
    eapply oks_bind.
    + apply oks_for_down with
        (I := fun k b => mem b (p ++ LVs xs ++ LVs (firstn k ys) ++ repeat LM (g k) ++ repeat LN (n - g k)
                                 ++ LVs (skipn k ys) ++ s)).
      * unfold g. rewrite Nat.sub_diag, Nat.min_0_r, Nat.sub_0_r, skipn_all2, firstn_all2 by lia. simpl. exact H.
      * intros k b' Hk M.
        destruct (split_nth ys (n:=k)) as (v1 & x & v2 & -> & Hv1); [lia|].
        replace (v1 ++ x :: v2) with ((v1 ++ [x]) ++ v2) in M by (lapp; auto).
        rewrite skipn_app_exact in M by len. rewrite firstn_app_exact in M by len.
        assert (W : exists w c, repeat (@LM V) (g (S k)) ++ repeat LN (n - g (S k)) = w ++ [c] /\ free c /\
                     length w = n - 1 /\ LM :: w = repeat LM (g k) ++ repeat LN (n - g k)).
        { assert (g (S k) <= n) by (unfold g; lia).
          destruct (Nat.eq_dec (g (S k)) n) as [E|E].
          - exists (repeat LM (n - 1)), LM.
            rewrite E, Nat.sub_diag, app_nil_r. split; [|split; [exact I|split]].
            + rewrite <- repeat_snoc. f_equal; lia.
            + apply repeat_length.
            + replace (g k) with n by (unfold g in *; len). rewrite Nat.sub_diag, app_nil_r.
              change (LM :: repeat (@LM V) (n - 1)) with (repeat (@LM V) (S (n - 1))). f_equal; lia.
          - exists (repeat LM (g (S k)) ++ repeat LN (n - g (S k) - 1)), LN.
            split; [|split; [exact I|split]].
            + lapp. f_equal. rewrite <- repeat_snoc. f_equal; lia.
            + len.
            + replace (g k) with (S (g (S k))) by (unfold g in *; len).
              simpl. f_equal. f_equal. f_equal. lia. }
        destruct W as (w & c & EW & Fc & Lw & EW2).
        eapply oks_mono.
        -- eapply mconstruct_up with (p := p ++ LVs xs ++ LVs v1) (v := x) (m := w) (c := c) (s := LVs v2 ++ s); auto.
           ++ eapply mem_cast; [exact M|]. rewrite map_app. lapp.
              do 4 f_equal. rewrite app_assoc, EW. lapp; auto.
           ++ len.
           ++ len.
        -- intros b2 M2. eapply mem_cast; [exact M2|].
           rewrite skipn_app_exact, firstn_app_exact by len.
           rewrite (app_assoc (repeat LM (g k))), <- EW2. lapp; auto.
    + intros b1 M. simpl in M. unfold g in M. rewrite Nat.sub_0_r in M.
      eapply oks_mono.
      * eapply destroy_ok with (p := p ++ LVs xs) (m := repeat LM (Nat.min n (length ys)))
          (s := repeat LN (n - Nat.min n (length ys)) ++ LVs ys ++ s); auto.
        -- eapply mem_cast; [exact M|]. lapp; auto.
        -- len.
        -- destruct (Nat.ltb_spec (length xs + n) (length xs + length ys)); len.
      * intros b' M'. eapply mem_cast; [exact M'|].
        lapp. do 2 f_equal. 
        rewrite app_assoc, <- repeat_app_add. f_equal.
        f_equal. destruct (Nat.ltb_spec (length xs + n) (length xs + length ys)); lia.
Qed.

(** shiftDown over a window [ds] of [n] live slots: the values move down, the [n] slots left at the
    end are live (old values or moved-from). *)
Lemma shiftDown_ok b p ds ys s base size index n :
  mem b (p ++ ds ++ LVs ys ++ s) -> Forall live ds ->
  n = length ds -> base + index = length p + n -> size = index + length ys -> n <= base + index ->
  oks (shiftDown chk triv b base size index n)
      (fun b' => exists ws, length ws = n /\ Forall live ws /\ mem b' (p ++ LVs ys ++ ws ++ s)).
Proof.
  intros H L En Eb Es Hle. unfold shiftDown, check_insert_bounds.
  rewrite check_if_ok by (apply Nat.ltb_ge; lia). simpl bind.
  destruct (Nat.eqb_spec n 0) as [->|Hn].
  - destruct ds; [|discriminate]. apply oks_ok. exists []. simpl in *. auto.
  - replace (size - index) with (length ys) by lia.
    eapply oks_mono.
    + apply oks_for_up with
        (I := fun i b => exists ws, length ws = n /\ Forall live ws /\
                mem b (p ++ LVs (firstn (i - index) ys) ++ ws ++ LVs (skipn (i - index) ys) ++ s)).
      * rewrite Nat.sub_diag. simpl. exists ds; auto.
      * intros i b' Hi (ws & Lw & Vw & M). remember (i - index) as k.
        destruct (split_nth ys (n:=k)) as (v1 & x & v2 & -> & Hv1); [lia|].
        rewrite skipn_app_exact in M by len. rewrite firstn_app_exact in M by len.
        destruct ws as [|w ws]; [simpl in Lw; lia|]. inversion Vw; subst.
        rewrite sub_ix_ok by lia. simpl bind.
        eapply oks_mono.
        -- eapply massign_down with (p := p ++ LVs v1) (c := w) (m := ws) (v := x) (s := LVs v2 ++ s); auto.
           ++ eapply mem_cast; [exact M|]. lapp; auto.
           ++ simpl in Lw. len.
           ++ simpl in Lw. len.
        -- intros b2 M2. exists (ws ++ [LM]). simpl in Lw. split; [len|]. split.
           ++ apply Forall_app; split; auto. repeat constructor; discriminate.
           ++ replace (i + 1 - index) with (S (i - index)) by lia.
              replace (v1 ++ x :: v2) with ((v1 ++ [x]) ++ v2) by (lapp; auto).
              rewrite skipn_app_exact, firstn_app_exact by len.
              eapply mem_cast; [exact M2|]. rewrite map_app. lapp; auto.
    + intros b' (ws & Lw & Vw & M). exists ws. split; auto. split; auto.
      simpl in M. replace (index + length ys - index) with (length ys) in M by lia.
      rewrite skipn_all2, firstn_all2 in M by lia. exact M.
Qed.

Lemma erase_ok b p xs ds ys s base size index n :
  mem b (p ++ LVs xs ++ LVs ds ++ LVs ys ++ s) ->
  base = length p -> index = length xs -> n = length ds -> size = length xs + length ds + length ys ->
  oks (erase chk triv b base size index n)
      (fun b' => mem b' (p ++ LVs xs ++ LVs ys ++ repeat LN n ++ s)).
Proof.
  intros H -> -> En ->. unfold erase.
  destruct (Nat.eqb_spec n 0) as [->|Hn].
  - destruct ds; [|discriminate]. apply oks_ok. simpl in *. exact H.
  - unfold check_bounds.
    rewrite check_if_ok by (apply Nat.leb_gt; lia). simpl bind.
    rewrite check_if_ok by (apply Nat.leb_gt; lia). simpl bind.
    eapply oks_bind.
    + eapply shiftDown_ok with (p := p ++ LVs xs) (ds := LVs ds) (ys := ys) (s := s); auto; len.
      eapply mem_cast; [exact H|]. lapp; auto.
    + intros b1 (ws & Lw & Vw & M).
      rewrite sub_ix_ok by lia. simpl bind.
      eapply oks_mono.
      * eapply destroy_ok with (p := (p ++ LVs xs) ++ LVs ys) (m := ws) (s := s); auto.
        -- eapply mem_cast; [exact M|]. lapp; auto.
        -- len.
      * intros b' M'. eapply mem_cast; [exact M'|]. lapp; auto.
Qed.

Lemma emplaceBack_ok b p vs c s base size v :
  mem b (p ++ LVs vs ++ c :: s) -> base = length p -> size = length vs -> free c ->
  oks (emplaceBack triv b base size v) (fun b' => mem b' (p ++ LVs (vs ++ [v]) ++ s)).
Proof.
  intros H -> -> F. unfold emplaceBack. eapply oks_mono.
  - eapply construct_ok with (p := p ++ LVs vs) (c := c) (s := s); auto.
    + eapply mem_cast; [exact H|]. lapp; auto.
    + len.
  - intros b' M. eapply mem_cast; [exact M|]. rewrite map_app. lapp; auto.
Qed.

Lemma append_loop_ok vs : forall b p m s base size i,
  mem b (p ++ m ++ s) -> base + size + i = length p -> length vs = length m -> Forall free m ->
  oks (append_loop triv b base size i vs)
      (fun r => mem (fst r) (p ++ LVs vs ++ s) /\ snd r = i + length vs).
Proof.
  induction vs as [|v vs IH]; intros b p m s base size i H E L F; simpl.
  - destruct m; [|discriminate]. apply oks_ok. simpl. split; auto.
  - destruct m as [|c m]; [discriminate|]. inversion F; subst.
    eapply oks_bind; [eapply construct_ok; eauto|].
    intros b' M. eapply oks_mono.
    + eapply IH with (p := p ++ [LV v]) (m := m) (s := s); auto.
      * eapply mem_cast; [exact M|]. lapp; auto.
      * len.
    + intros [b2 j] [M2 Ej]. simpl in *. split; [|lia]. eapply mem_cast; [exact M2|]. lapp; auto.
Qed.

Lemma append_ok b p vs ws n s base size :
  mem b (p ++ LVs vs ++ repeat LN n ++ s) -> base = length p -> size = length vs -> n = length ws ->
  oks (append triv b base size ws)
      (fun r => mem (fst r) (p ++ LVs (vs ++ ws) ++ s) /\ snd r = length ws).
Proof.
  intros H -> -> ->. unfold append. eapply oks_mono.
  - eapply append_loop_ok with (p := p ++ LVs vs) (m := repeat LN (length ws)) (s := s); auto; len.
    eapply mem_cast; [exact H|]. lapp; auto.
  - intros [b' j] [M E]. simpl in *. split; auto. eapply mem_cast; [exact M|]. rewrite map_app; lapp; auto.
Qed.

Lemma emplace_ok b p xs ys s base size index v :
  mem b (p ++ LVs xs ++ LVs ys ++ LN :: s) ->
  base = length p -> index = length xs -> size = length xs + length ys ->
  oks (emplace chk triv b base size index v)
      (fun b' => mem b' (p ++ LVs (xs ++ v :: ys) ++ s)).
Proof.
  intros H -> -> ->. unfold emplace, check_insert_bounds.
  rewrite check_if_ok by (apply Nat.ltb_ge; lia). simpl bind.
  eapply oks_bind.
  - eapply shiftUp_ok with (n := 1) (ys := ys) (xs := xs) (s := s) (p := p); auto.
  - intros b1 M. simpl in M. eapply oks_mono.
    + eapply construct_ok with (p := p ++ LVs xs) (c := LN) (s := LVs ys ++ s); simpl; auto.
      * eapply mem_cast; [exact M|]. lapp; auto.
      * len.
    + intros b' M'. eapply mem_cast; [exact M'|]. rewrite map_app. simpl. lapp; auto.
Qed.

Lemma insert_ok b p xs ys ws n s base size index :
  mem b (p ++ LVs xs ++ LVs ys ++ repeat LN n ++ s) ->
  base = length p -> index = length xs -> size = length xs + length ys -> n = length ws ->
  oks (insert chk triv b base size index ws)
      (fun b' => mem b' (p ++ LVs (xs ++ ws ++ ys) ++ s)).
Proof.
  intros H -> -> -> ->. unfold insert, check_insert_bounds.
  rewrite check_if_ok by (apply Nat.ltb_ge; lia). simpl bind.
  eapply oks_bind.
  - eapply shiftUp_ok with (n := length ws) (ys := ys) (xs := xs); eauto.
  - intros b1 M. eapply oks_mono.
    + eapply uninitializedCopy_ok with (p := p ++ LVs xs) (m := repeat LN (length ws)) (s := LVs ys ++ s); auto; len.
      eapply mem_cast; [exact M|]. lapp; auto.
    + intros b' M'. eapply mem_cast; [exact M'|]. rewrite !map_app. lapp; auto.
Qed.

Lemma popBack_ok b p vs v s base size :
  mem b (p ++ LVs (vs ++ [v]) ++ s) -> base = length p -> size = length vs + 1 ->
  oks (popBack triv b base size) (fun b' => mem b' (p ++ LVs vs ++ LN :: s)).
Proof.
  intros H -> ->. unfold popBack. rewrite sub_ix_ok by lia. simpl bind.
  eapply oks_mono.
  - eapply destroy1_ok with (p := p ++ LVs vs) (c := LV v) (s := s); try discriminate; auto; len.
    eapply mem_cast; [exact H|]. rewrite map_app. lapp; auto.
  - intros b' M. eapply mem_cast; [exact M|]. lapp; auto.
Qed.

End AMP.
