(** consistencyCheck decides whether every row is increasing; assimilate on arbitrary arrays. *)
From Coq Require Import List Arith ZArith Lia Bool Sorting.Sorted Permutation.
From Verif Require Import Base BaseProofs Mem MemProofs ArrayManipProofs BufferManip BufferManipProofs
  Sorted SortedSpec SortedProofs SortedProofs2 SortedProofs3 SortedArraySpec AoA AoASpec AoALayout AoAProofs AoAProofs2 AoAProofs4
  AoS AoSSpec SetsProofs SetsProofs2 AoSProofs AoSProofs2 Consistency ConsistencySpec.
From Verif Require ArrayManip AoAProofs3.
Import ListNotations.
Set Implicit Arguments.
Unset Strict Implicit.

Section Loop.
Variable V : Type.
Variable triv : bool.
Variable lt : V -> V -> bool.
Notation LVs := (map (@LV V)).
Notation mem := (@mem V triv).

Lemma sorted_unique_from_ok b p s l : forall x, mem b (p ++ LVs l ++ s) ->
  sorted_unique_from lt b x (length p) (length l) = Ok (isSortedUnique_from lt x l).
Proof.
  revert p. induction l as [|y l IH]; intros p x M; simpl; auto.
  rewrite (@rd_ok V triv b p y (LVs l ++ s)); [|exact M|reflexivity]. cbn [bind].
  destruct (lt y x || negb (lt x y))%bool; auto.
  replace (length p + 1) with (length (p ++ [LV y])) by len. apply IH. eapply mem_cast; [exact M|]. rewrite <- app_assoc. reflexivity.
Qed.
Lemma sorted_unique_ok b p s l : mem b (p ++ LVs l ++ s) -> sorted_unique lt b (length p) (length l) = Ok (isSortedUnique lt l).
Proof.
  intros M. destruct l as [|x l]; simpl; auto. rewrite (@rd_ok V triv b p x (LVs l ++ s)); [|exact M|reflexivity]. cbn [bind].
  replace (length p + 1) with (length (p ++ [LV x])) by len. eapply sorted_unique_from_ok. eapply mem_cast; [exact M|]. rewrite <- app_assoc. reflexivity.
Qed.

(** removeDuplicates on any range. *)
Fixpoint records (last : V) (l : list V) : list V :=
  match l with [] => [] | y :: l' => if lt last y then y :: records y l' else records last l' end.
Definition kept (l : list V) : list V := match l with [] => [] | x :: l' => x :: records x l' end.

Lemma records_snoc l : forall x u z y, x :: records x l = u ++ [z] ->
  x :: records x (l ++ [y]) = (u ++ [z]) ++ (if lt z y then [y] else []).
Proof.
  induction l as [|w l IH]; intros x u z y E; simpl in *.
  - destruct u as [|? [|]]; try discriminate. injection E as ->. simpl. destruct (lt z y); reflexivity.
  - destruct (lt x w) eqn:Lw.
    + destruct u as [|x' u]; [discriminate|]. injection E as -> E. simpl. f_equal. apply IH. exact E.
    + apply IH. exact E.
Qed.
Lemma kept_snoc l u z y : kept l = u ++ [z] -> kept (l ++ [y]) = (u ++ [z]) ++ (if lt z y then [y] else []).
Proof. destruct l as [|x l]; simpl; [destruct u; discriminate|]. apply records_snoc. Qed.

Lemma removeDuplicates_any b p s l : mem b (p ++ LVs l ++ s) -> (forall x, lt x x = false) ->
  oks (removeDuplicates triv lt b (length p) (length l))
      (fun r => exists g, mem (fst r) (p ++ LVs (kept l) ++ g ++ s) /\ snd r = length (kept l) /\ length (kept l) + length g = length l /\ Forall (@live V) g).
Proof.
  intros M irr. unfold removeDuplicates. destruct l as [|x0 l].
  - apply oks_ok. exists []. simpl in *. repeat split; auto; try constructor.
  - cbn [length Nat.eqb for_up]. set (L := x0 :: l) in *.
    rewrite (@rd_ok V triv b p x0 (LVs l ++ s)); [|exact M|lia]. cbn [bind]. rewrite irr. cbn [bind].
    set (I := fun k (st : buf V * nat * nat) => let '(b, first, nu) := st in
       exists u z g, mem b (p ++ LVs (u ++ [z]) ++ g ++ LVs (skipn k L) ++ s) /\ first = length u /\ nu = first + 1 /\
         length u + 1 + length g = k /\ k <= length L /\ Forall (@live V) g /\ kept (firstn k L) = u ++ [z]).
    eapply oks_bind.
    + apply oks_for_up with (I := I).
      * exists [], x0, []. cbn. repeat split; auto; try lia.
      * intros k [[b' first] nu] Hk (u & z & g & Mb & -> & -> & Lk & Lk2 & Lg & Kk).
        assert (Hkl : k < length L) by (unfold L; simpl; lia).
        destruct (nth_error L k) as [y|] eqn:Ny; [|apply nth_error_None in Ny; lia].
        assert (Sk : skipn k L = y :: skipn (Datatypes.S k) L).
        { clear -Ny. revert k Ny; induction L as [|h t IH]; intros [|k] Ny; simpl in *; try discriminate; [congruence|auto]. }
        assert (Fk : firstn (Datatypes.S k) L = firstn k L ++ [y]).
        { clear -Ny. revert k Ny; induction L as [|h t IH]; intros [|k] Ny; simpl in *; try discriminate; [congruence|].
          f_equal. auto. }
        pose proof (kept_snoc y Kk) as Ks. rewrite <- Fk in Ks.
        rewrite Sk in Mb.
        rewrite (@rd_ok V triv b' (p ++ LVs u) z (g ++ LVs (y :: skipn (Datatypes.S k) L) ++ s)).
        2:{ eapply mem_cast; [exact Mb|]. rewrite map_app. lapp. auto. } 2:{ len. }
        cbn [bind].
        rewrite (@rd_ok V triv b' (p ++ LVs (u ++ [z]) ++ g) y (LVs (skipn (Datatypes.S k) L) ++ s)).
        2:{ eapply mem_cast; [exact Mb|]. lapp. auto. } 2:{ clear -Lk. rewrite !app_length, map_length, app_length. simpl. lia. }
        cbn [bind].
        replace (k + 1) with (Datatypes.S k) by lia.
        destruct (lt z y) eqn:Ezy.
        -- destruct (Nat.eqb_spec (length u + 1) k) as [Ek|Ek].
           ++ destruct g; [|simpl in Lk; lia]. apply oks_ok. exists (u ++ [z]), y, [].
              repeat split; auto; try (len; fail).
              eapply mem_cast; [exact Mb|]. rewrite !map_app. lapp. auto.
           ++ destruct g as [|c g]; [simpl in Lk; lia|]. pose proof (Forall_inv Lg) as Lc. apply Forall_inv_tail in Lg.
              eapply oks_bind.
              ** eapply (@massign_down V triv b' (p ++ LVs (u ++ [z])) y g c (LVs (skipn (Datatypes.S k) L) ++ s)); auto.
                 --- eapply mem_cast; [exact Mb|]. lapp. auto.
                 --- clear. len.
                 --- clear -Lk. rewrite app_length, map_length, app_length. simpl in *. lia.
              ** intros b2 M2. apply oks_ok. exists (u ++ [z]), y, (g ++ [LM]).
                 repeat split; auto; try (clear -Lk Hkl; len; fail).
                 --- eapply mem_cast; [exact M2|]. rewrite !map_app. lapp. auto.
                 --- apply Forall_app. split; auto. repeat constructor. discriminate.
        -- apply oks_ok. exists u, z, (g ++ [LV y]). repeat split; auto; try (clear -Lk Hkl; len; fail).
           ++ eapply mem_cast; [exact Mb|]. lapp. auto.
           ++ apply Forall_app. split; auto. repeat constructor. discriminate.
           ++ rewrite Ks, app_nil_r. reflexivity.
    + cbn beta. intros [[b' first] nu] (u & z & g & Mb & -> & -> & Lk & _ & Lg & Kk). apply oks_ok.
      cbn [fst snd]. exists g.
      assert (E : 0 + 1 + length l = length L) by reflexivity. change (Datatypes.S (length l)) with (length L).
      rewrite E in *. rewrite skipn_all in Mb. rewrite firstn_all in Kk. rewrite Kk.
      repeat split; auto; try (clear -Lk; len; fail).
Qed.

(** What is kept, and that it is increasing. *)
Hypothesis O : strict_weak_order lt.
Lemma records_above l : forall x, Forall (fun y => lt x y = true) (records x l) /\ StronglySorted (fun x y => lt x y = true) (records x l).
Proof.
  induction l as [|w l IH]; intros x; simpl; [split; constructor|]. destruct (lt x w) eqn:E; [|apply IH].
  destruct (IH w) as [F Ss]. split; constructor; auto. eapply Forall_impl; [|exact F]. intros y Hy. cbn in Hy. eapply (swo_trans O); eauto.
Qed.
Lemma kept_increasing l : StronglySorted (fun x y => lt x y = true) (kept l).
Proof. destruct l as [|x l]; simpl; constructor; apply records_above. Qed.
Lemma records_in l : forall x v, In v (records x l) <-> lt x v = true /\ new_maximum lt l v.
Proof.
  induction l as [|w l IH]; intros x v; simpl.
  - split; [tauto|]. intros [_ (a & c & E & _)]. destruct a; discriminate.
  - split.
    + destruct (lt x w) eqn:E.
      * intros [<-|H]; [split; auto; exists [], l; auto|]. apply IH in H. destruct H as [H (a & c & -> & F)].
        split; [eapply (swo_trans O); eauto|]. exists (w :: a), c. split; auto.
      * intros H. apply IH in H. destruct H as [H (a & c & -> & F)]. split; auto. exists (w :: a), c. split; auto. constructor; auto.
        destruct (@swo_cotrans _ _ O x w v H) as [H'|H']; auto. rewrite E in H'. discriminate.
    + intros [H (a & c & E & F)]. destruct a as [|w' a]; simpl in E; injection E as -> ->.
      * rewrite H. left. reflexivity.
      * pose proof (Forall_inv F) as Fw. apply Forall_inv_tail in F. cbn in Fw.
        destruct (lt x w'); [right|]; apply IH; split; auto; exists a, c; auto.
Qed.
Lemma kept_in l v : In v (kept l) <-> new_maximum lt l v.
Proof.
  destruct l as [|x l]; simpl.
  - split; [tauto|]. intros (a & c & E & _). destruct a; discriminate.
  - rewrite records_in. split.
    + intros [<-|[H (a & c & -> & F)]]; [exists [], l; auto|exists (x :: a), c; auto].
    + intros (a & c & E & F). destruct a as [|x' a]; simpl in E; injection E as -> ->; [left; reflexivity|right].
      split; [exact (Forall_inv F)|]. exists a, c. split; auto. apply Forall_inv_tail in F. exact F.
Qed.
End Loop.

Section Container.
Variable V W : Type.
Variable fw : V -> W.
Variable chk tv tw : bool.
Variable lt eqb : V -> V -> bool.
Hypothesis T : total_order lt eqb.
Notation kind := BMalloc.
Notation aoa := (aoa V W).
Notation idv := (fun v : V => v).
Notation rep := (@rep V V W idv fw tv tw false lt).
Notation aok := (@aok V V W idv fw tv tw false).
Notation pok := (@pok V V W idv fw tv tw false).
Notation LVs := (map (@LV V)).
Notation row := (list V * nat)%type.
Notation rows := (list row).
Implicit Types a : aoa.
Implicit Types A B L : rows.
Variable dflt : V.
Variable sort : buf V -> nat -> nat -> outcome (buf V).
Hypothesis HS : sorts lt sort.

Lemma check_set_row a A r k B : aok a (A ++ (r, k) :: B) -> check_set chk lt a (length A) = if isSortedUnique lt r then Ok tt else Abort.
Proof.
  intros H. pose proof H as [I [Ev _]]. unfold check_set. rewrite (row_size chk I). cbn [bind]. rewrite (row_capacity chk I). cbn [bind].
  rewrite error_if_ok by (apply Nat.ltb_ge; lia). cbn [bind]. rewrite (row_values idv chk I). cbn [bind].
  destruct (lay_row Ev) as [q M]. rewrite map_id in M. rewrite (@sorted_unique_ok V tv lt _ _ _ r M). cbn [bind].
  destruct (isSortedUnique lt r); reflexivity.
Qed.
Lemma check_rows a : forall B A, aok a (A ++ B) ->
  for_up (length B) (fun i _ => check_set chk lt a i) (length A) tt = if forallb (isSortedUnique lt) (map fst B) then Ok tt else Abort.
Proof.
  induction B as [|[r k] B IH]; intros A H; simpl; auto. rewrite (check_set_row H). destruct (isSortedUnique lt r); cbn [bind andb]; auto.
  replace (length A + 1) with (length (A ++ [(r, k)])) by len. apply IH. rewrite <- app_assoc. exact H.
Qed.
Lemma consistency_rows a L : aok a L -> consistencyCheck chk lt a = if forallb (isSortedUnique lt) (map fst L) then Ok tt else Abort.
Proof. intros H. unfold consistencyCheck. pose proof H as [(N & _) _]. rewrite N. exact (@check_rows a L [] H). Qed.

Lemma all_unique (M : list (list V)) : forallb (isSortedUnique lt) M = true <-> Forall (increasing lt) M.
Proof.
  rewrite forallb_forall, Forall_forall. split; intros H r Hr; apply (isSortedUnique_iff (to_swo T)); auto.
Qed.
Lemma rep_consistent a M : rep a M -> consistencyCheck chk lt a = Ok tt.
Proof.
  intros (L & H & F). rewrite (consistency_rows H). replace (forallb (isSortedUnique lt) (map fst L)) with true; auto.
  symmetry. apply all_unique. clear H. induction F as [|x S L M [I _] F IH]; simpl; constructor; auto. apply (increasing_strong lt). exact I.
Qed.

(** One row of assimilate. *)
Definition turns (f : aoa -> nat -> outcome aoa) (Q : list V -> list V -> Prop) : Prop :=
  forall a A r k B, aok a (A ++ (r, k) :: B) ->
    oks (f a (length A)) (fun a' => exists r' k', aok a' (A ++ (r', k') :: B) /\ Q r r').

Lemma sort_turns : turns (sort_set chk sort) (turned lt UnsortedNoDuplicates).
Proof.
  intros a A r k B H. pose proof H as [I [Ev _]]. unfold sort_set. rewrite (row_values idv chk I), (row_size chk I). cbn [bind].
  destruct (lay_row Ev) as [q M]. rewrite map_id in M.
  eapply oks_bind; [exact (sort_mem HS M)|]. intros b (l' & M' & Pe & So). apply oks_ok. exists l', k. split; [|split; auto].
  pose proof (Permutation_length Pe) as Lp. split.
  - destruct I as (N & O & Z). split; [|split]; simpl; auto.
    + rewrite N. len.
    + eapply holds_eq; [exact O|]. rewrite !offsets_app. simpl. unfold wid. simpl. rewrite Lp. reflexivity.
    + eapply holds_eq; [exact Z|]. rewrite !sizes_app. simpl. rewrite Lp. reflexivity.
  - split; [|discriminate]. simpl. apply row_lay with (q := q). rewrite map_id. exact M'.
Qed.
Lemma unique_turns f (Q : list V -> list V -> Prop) :
  (forall b p l s, mem tv b (p ++ LVs l ++ s) ->
     oks (f b (length p) (length l)) (fun r => exists u g, mem tv (fst r) (p ++ LVs u ++ g ++ s) /\ snd r = length u /\
        length u + length g = length l /\ Forall live g /\ Q l u)) ->
  turns (unique_set chk tv dflt f) Q.
Proof.
  intros Hf a A r k B H. pose proof H as [I [Ev _]]. unfold unique_set. rewrite (row_values idv chk I), (row_size chk I). cbn [bind].
  destruct (lay_row Ev) as [q M]. rewrite map_id in M.
  eapply oks_bind; [apply Hf; exact M|]. intros [b n] (u & g & M' & En & Len & Lg & Hq). cbn [fst snd] in *. subst n.
  unfold ArrayManip.resize. rewrite bind_assoc. eapply oks_bind.
  - eapply destroy_ok with (p := flat idv A ++ LVs u) (m := g) (s := repeat LN k ++ flat idv B ++ repeat LN q); auto.
    + eapply mem_cast; [exact M'|]. rewrite <- !app_assoc. reflexivity.
    + len.
    + lia.
  - intros b1 M1. replace (length u - length r) with 0 by lia. cbn [for_up bind].
    eapply oks_mono.
    + eapply (@AoAProofs3.row_put V W tv tw fw a A r k B u (length r - length u + k) b1 q); [exact I| |lia|reflexivity].
      eapply mem_cast; [exact M1|]. rewrite repeat_app_add, <- !app_assoc. reflexivity.
    + intros a' H'. exists u, (length r - length u + k). split; [exact H'|exact Hq].
Qed.
Lemma dedup_turns : turns (unique_set chk tv dflt (removeDuplicates tv lt)) (turned lt SortedWithDuplicates).
Proof.
  apply unique_turns. intros b p l s M. eapply oks_mono; [apply (removeDuplicates_any M (swo_irr (to_swo T)))|].
  intros r (g & M' & E & Len & Lg). exists (kept lt l), g. repeat split; auto.
  - apply (increasing_strong lt), (kept_increasing (to_swo T)).
  - apply (kept_in (to_swo T)).
  - apply (kept_in (to_swo T)).
Qed.
Lemma sortdedup_turns : turns (unique_set chk tv dflt (makeSortedUnique tv lt sort)) (turned lt UnsortedWithDuplicates).
Proof.
  apply unique_turns. intros b p l s M. unfold makeSortedUnique.
  eapply oks_bind; [exact (sort_mem HS M)|]. intros b1 (l' & M1 & Pe & So). apply sorted_strong in So.
  rewrite (Permutation_length Pe).
  eapply oks_mono; [eapply (@removeDuplicates_ok V tv lt (to_swo T)); eauto|].
  intros r (u & g & M' & E & Len & Lg & Iu & Inc & Cov). exists u, g. split; [exact M'|]. split; auto. split; auto. split; auto. split.
  - apply (increasing_strong lt). exact Iu.
  - intros x. split.
    + intros Hx. apply Inc in Hx. eapply Permutation_in; [apply Permutation_sym; exact Pe|auto].
    + intros Hx. eapply Permutation_in in Hx; [|exact Pe]. destruct (Cov x Hx) as (y & Hy & L1 & L2). rewrite (to_total T L1 L2). auto.
Qed.
Lemma each_turns f Q : turns f Q -> forall a L, aok a L ->
  oks (each_set f a) (fun a' => exists L', aok a' L' /\ Forall2 Q (map fst L) (map fst L')).
Proof.
  intros Hf a L H. unfold each_set. pose proof H as [(N & _) _]. rewrite N.
  eapply oks_mono.
  - apply oks_for_up with (I := fun k a => exists L1 L1' L2, length L1' = k /\ aok a (L1' ++ L2) /\ L1 ++ L2 = L /\ Forall2 Q (map fst L1) (map fst L1')).
    + exists [], [], L. split; auto. split; [exact H|]. split; auto. constructor.
    + intros i a1 Hi (L1 & L1' & L2 & E1 & H1 & <- & F).
      assert (El : length L1 = length L1') by (apply f2_len in F; rewrite !map_length in F; auto).
      rewrite app_length in Hi. destruct L2 as [|[r k] L2]; [simpl in Hi; lia|].
      rewrite <- E1 at 1. eapply oks_mono; [eapply Hf; exact H1|].
      intros a2 (r' & k' & H2 & R2). exists (L1 ++ [(r, k)]), (L1' ++ [(r', k')]), L2. split; [len|]. split; [rewrite <- app_assoc; exact H2|].
      split; [rewrite <- app_assoc; reflexivity|]. rewrite !map_app. apply Forall2_app; auto. constructor; auto.
  - intros a' (L1 & L1' & L2 & E1 & H1 & <- & F).
    assert (El : length L1 = length L1') by (apply f2_len in F; rewrite !map_length in F; auto).
    rewrite app_length in E1. destruct L2; [|simpl in E1; lia]. rewrite app_nil_r in *. exists L1'. auto.
Qed.
Lemma assimilate_turns this src L d : (exists L0, pok this L0) -> aok src L ->
  oks (aos_assimilate chk tv tw false kind lt dflt sort this src d) (fun a' => exists L', aok a' L' /\ Forall2 (turned lt d) (map fst L) (map fst L')).
Proof.
  intros [L0 H0] H. unfold aos_assimilate. destruct (free_ok chk H0) as (t & -> & _). cbn [bind].
  destruct d.
  - apply oks_ok. exists L. split; auto. clear H. induction L; simpl; constructor; auto. reflexivity.
  - eapply each_turns; [apply sort_turns|exact H].
  - eapply each_turns; [apply dedup_turns|exact H].
  - eapply each_turns; [apply sortdedup_turns|exact H].
Qed.

(** When the result is increasing. *)
Lemma turned_ok d r r' : turned lt d r r' -> (increasing lt r' <-> acceptable lt d r) /\ (increasing lt r' -> forall x, In x r' <-> made_set lt d r x).
Proof using T.
  destruct d; cbn [turned acceptable made_set].
  - intros ->. split; [reflexivity|]. intros _ x. reflexivity.
  - intros [Pe So]. split.
    + split.
      * intros I. apply (increasing_strong lt) in I. apply (Permutation_NoDup (Permutation_sym Pe)). clear Pe So.
        induction I as [|x l I IH F]; constructor; auto. intros Hx. rewrite Forall_forall in F. specialize (F x Hx). cbn in F.
        rewrite (swo_irr (to_swo T)) in F. discriminate.
      * intros Nd. assert (Nd' : NoDup r') by (eapply Permutation_NoDup; eauto). apply (increasing_strong lt). apply sorted_strong in So.
        clear -So Nd' T. induction So as [|x l So IH F]; constructor; [apply IH; inversion Nd'; auto|].
        apply Forall_forall. intros y Hy. rewrite Forall_forall in F. specialize (F y Hy). cbn in F.
        destruct (lt x y) eqn:E; auto. exfalso. rewrite (to_total T E F) in Nd'. inversion Nd'; subst. auto.
    + intros _ x. split; apply Permutation_in; auto. apply Permutation_sym; auto.
  - intros [I S]. split; [split; intros _; auto|]. intros _. exact S.
  - intros [I S]. split; [split; intros _; auto|]. intros _. exact S.
Qed.
Lemma turned_all d M M' : Forall2 (turned lt d) M M' -> (Forall (increasing lt) M' <-> Forall (acceptable lt d) M).
Proof using T.
  induction 1 as [|r r' M M' H F IH]; [split; constructor|]. destruct (turned_ok H) as [E _]. split; intros G; inversion G; subst; constructor; try apply E; try apply IH; auto.
Qed.
Lemma turned_rep d a M L' : aok a L' -> Forall2 (turned lt d) M (map fst L') -> Forall (acceptable lt d) M -> rep a (map (made_set lt d) M).
Proof using T.
  intros H F G. exists L'. split; auto. clear H. revert M F G. induction L' as [|[r' k] L' IH]; intros M F G; simpl in F; inversion F; subst; simpl; constructor.
  - inversion G; subst. destruct (turned_ok H2) as [E S]. apply E in H1. split; simpl; [apply (increasing_strong lt); exact H1|]. auto.
  - apply IH; auto. apply Forall_inv_tail in G. exact G.
Qed.

Lemma full_ok defined this src L d : (exists L0, pok this L0) -> aok src L ->
  exists a L', aos_assimilate chk tv tw false kind lt dflt sort this src d = Ok a /\ aok a L' /\ Forall2 (turned lt d) (map fst L) (map fst L') /\
    full_assimilate chk lt tv tw false kind dflt sort defined this src d =
      if (negb defined || forallb (isSortedUnique lt) (map fst L'))%bool then Ok a else Abort.
Proof.
  intros H0 H. destruct (assimilate_turns d H0 H) as (a & E & L' & Ha & F). exists a, L'. split; auto. split; auto. split; auto.
  unfold full_assimilate. rewrite E. cbn [bind]. destruct defined; cbn [negb orb bind]; auto. rewrite (consistency_rows Ha).
  destruct (forallb _ _); reflexivity.
Qed.
End Container.
