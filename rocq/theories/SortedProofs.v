(** Sorted lists, find, isSorted, removeDuplicates. *)
From Coq Require Import List Arith ZArith Lia Bool Sorting.Sorted.
From Verif Require Import Base BaseProofs Mem MemProofs ArrayManipProofs Sorted SortedSpec.
From Verif Require ArrayManip.
Import ListNotations.
Set Implicit Arguments.
Unset Strict Implicit.

Section Lists.
Variable A : Type.
Variable R : A -> A -> Prop.

(** The index formulation of the specification is StronglySorted. *)
Lemma pairs_strong (l : list A) :
  (forall i j x y, i < j -> nth_error l i = Some x -> nth_error l j = Some y -> R x y) <-> StronglySorted R l.
Proof.
  split.
  - induction l as [|a l IH]; intros H; constructor.
    + apply IH. intros i j x y L Hi Hj. apply (H (S i) (S j)); auto. lia.
    + apply Forall_forall. intros x Hx. apply In_nth_error in Hx. destruct Hx as [n Hn].
      apply (H 0 (S n)); auto. lia.
  - induction 1 as [|a l S IH F]; intros i j x y L Hi Hj.
    + destruct i; discriminate.
    + destruct j as [|j]; [lia|]. simpl in Hj. destruct i as [|i]; simpl in Hi.
      * injection Hi as <-. rewrite Forall_forall in F. apply F. eapply nth_error_In; eauto.
      * apply (IH i j); auto; lia.
Qed.

Lemma strong_app (l1 l2 : list A) : StronglySorted R (l1 ++ l2) <->
  StronglySorted R l1 /\ StronglySorted R l2 /\ (forall x y, In x l1 -> In y l2 -> R x y).
Proof.
  induction l1 as [|a l1 IH]; simpl.
  - split; [intros H; repeat split; auto; [constructor|tauto]|tauto].
  - split.
    + intros H. inversion H; subst. apply IH in H2. destruct H2 as (S1 & S2 & C).
      apply Forall_app in H3. destruct H3 as [F1 F2]. repeat split; auto.
      * constructor; auto.
      * intros x y [->|Hx] Hy; auto. rewrite Forall_forall in F2. auto.
    + intros (S1 & S2 & C). inversion S1; subst. constructor.
      * apply IH. repeat split; auto.
      * apply Forall_app. split; auto. apply Forall_forall. intros y Hy. apply C; auto.
Qed.
End Lists.

Section Proofs.
Variable V : Type.
Variable chk triv : bool.
Variable lt eqb : V -> V -> bool.
Notation mem := (@mem V triv).
Notation LVs := (map (@LV V)).
Notation le x y := (lt y x = false).

Hypothesis W : strict_weak_order lt.

Lemma irr x : lt x x = false. Proof. apply W. Qed.
Lemma trans x y z : lt x y = true -> lt y z = true -> lt x z = true. Proof. apply W. Qed.
Lemma lt_le x y : lt x y = true -> le x y.
Proof. intros H. destruct (lt y x) eqn:E; auto. rewrite <- (irr x). symmetry. eapply trans; eauto. Qed.
Lemma le_lt_trans x y z : le x y -> lt y z = true -> lt x z = true.
Proof. intros H1 H2. destruct (swo_cotrans W x H2); congruence. Qed.
Lemma lt_le_trans x y z : lt x y = true -> le y z -> lt x z = true.
Proof. intros H1 H2. destruct (swo_cotrans W z H1); congruence. Qed.
Lemma le_trans x y z : le x y -> le y z -> le x z.
Proof. intros H1 H2. destruct (lt z x) eqn:E; auto. destruct (swo_cotrans W y E); congruence. Qed.

Lemma sorted_strong l : sorted lt l <-> StronglySorted (fun x y => le x y) l.
Proof. apply (@pairs_strong V (fun x y => le x y) l). Qed.
Lemma increasing_strong l : increasing lt l <-> StronglySorted (fun x y => lt x y = true) l.
Proof. apply (@pairs_strong V (fun x y => lt x y = true) l). Qed.

Lemma incr_sorted l : StronglySorted (fun x y => lt x y = true) l -> StronglySorted (fun x y => le x y) l.
Proof.
  induction 1; constructor; auto. eapply Forall_impl; [|eassumption]. intros. apply lt_le. auto.
Qed.

Lemma isSorted_from_iff x l : isSorted_from lt x l = true <-> StronglySorted (fun x y => le x y) (x :: l).
Proof.
  revert x; induction l as [|y l IH]; intros x; simpl.
  - split; auto. intros _. repeat constructor.
  - destruct (lt y x) eqn:E.
    + split; [discriminate|]. intros H. inversion H; subst. inversion H3; subst. congruence.
    + rewrite IH. split; intros H.
      * constructor; auto. inversion H; subst. constructor; auto.
        eapply Forall_impl; [|eassumption]. intros z Hz. cbn beta in *. eapply le_trans; eauto.
      * inversion H; auto.
Qed.

Lemma isSorted_iff l : isSorted lt l = true <-> sorted lt l.
Proof.
  rewrite sorted_strong. destruct l as [|x l]; simpl; [split; auto; constructor|apply isSorted_from_iff].
Qed.

Lemma isSortedUnique_from_iff x l :
  isSortedUnique_from lt x l = true <-> StronglySorted (fun x y => lt x y = true) (x :: l).
Proof.
  revert x; induction l as [|y l IH]; intros x; simpl.
  - split; auto. intros _. repeat constructor.
  - destruct (lt x y) eqn:E; simpl.
    + rewrite (lt_le E). simpl. rewrite IH. split; intros H.
      * constructor; auto. inversion H; subst. constructor; auto.
        eapply Forall_impl; [|eassumption]. intros z Hz. cbn beta in *. eapply trans; eauto.
      * inversion H; auto.
    + rewrite orb_true_r. split; [discriminate|]. intros H. inversion H; subst. inversion H3; subst. congruence.
Qed.

Lemma isSortedUnique_iff l : isSortedUnique lt l = true <-> increasing lt l.
Proof.
  rewrite increasing_strong. destruct l as [|x l]; simpl; [split; auto; constructor|apply isSortedUnique_from_iff].
Qed.

(** A sorted list splits at any value. *)
Lemma split_less l v : StronglySorted (fun x y => le x y) l -> exists a c, l = a ++ c /\
  Forall (fun x => lt x v = true) a /\ Forall (fun x => lt x v = false) c.
Proof.
  induction 1 as [|x l S IH F].
  - exists [], []. auto.
  - destruct (lt x v) eqn:E.
    + destruct IH as (a & c & -> & Fa & Fc). exists (x :: a), c. repeat split; auto.
    + exists [], (x :: l). repeat split; auto. constructor; auto.
      eapply Forall_impl; [|exact F]. intros y Hy. cbn beta in *.
      destruct (lt y v) eqn:E2; auto. rewrite <- E. symmetry. eapply le_lt_trans; eauto.
Qed.

Lemma number_less_split a c v : Forall (fun x => lt x v = true) a -> Forall (fun x => lt x v = false) c ->
  number_less lt (a ++ c) v = length a.
Proof.
  intros Fa Fc. unfold number_less. rewrite filter_app, app_length.
  replace (filter (fun x => lt x v) a) with a.
  - replace (filter (fun x => lt x v) c) with (@nil V); [simpl; lia|].
    induction Fc; simpl; auto. rewrite H. auto.
  - induction Fa; simpl; auto. rewrite H. f_equal. auto.
Qed.

Lemma find_loop_ok b p s a c v : mem b (p ++ LVs (a ++ c) ++ s) ->
  Forall (fun x => lt x v = true) a -> Forall (fun x => lt x v = false) c ->
  forall fuel lower upper, lower <= length a <= upper -> upper <= length a + length c -> upper - lower <= fuel ->
  find_loop lt fuel b (length p) v lower upper = Ok (length a).
Proof.
  intros M Fa Fc. induction fuel as [|fuel IH]; intros lower upper H1 H2 H3.
  - simpl. destruct (Nat.eqb_spec lower upper); [f_equal; lia|lia].
  - cbn [find_loop]. destruct (Nat.eqb_spec lower upper); [f_equal; lia|].
    set (g := (lower + upper) / 2).
    assert (lower <= g < upper).
    { unfold g. pose proof (Nat.div_mod (lower + upper) 2). pose proof (Nat.mod_upper_bound (lower + upper) 2). lia. }
    destruct (nth_error (a ++ c) g) as [x|] eqn:N.
    2:{ apply nth_error_None in N. rewrite app_length in N. lia. }
    rewrite (@rd_nth V triv b _ (length p + g) x M).
    2:{ rewrite nth_error_app2 by lia. replace (length p + g - length p) with g by lia.
        rewrite nth_error_app1; [apply map_nth_error; auto|]. rewrite map_length, app_length. lia. }
    cbn [bind].
    destruct (le_lt_dec (length a) g) as [L|L].
    + rewrite nth_error_app2 in N by lia. apply nth_error_In in N. rewrite Forall_forall in Fc. rewrite (Fc x N).
      apply IH; lia.
    + rewrite nth_error_app1 in N by lia. apply nth_error_In in N. rewrite Forall_forall in Fa. rewrite (Fa x N).
      apply IH; lia.
Qed.

Lemma find_ok b p s a c v base size : mem b (p ++ LVs (a ++ c) ++ s) ->
  Forall (fun x => lt x v = true) a -> Forall (fun x => lt x v = false) c ->
  base = length p -> size = length a + length c ->
  find lt b base size v = Ok (length a).
Proof. intros M Fa Fc -> ->. unfold find. eapply find_loop_ok; eauto; lia. Qed.

(** removeDuplicates on a sorted range *)
Lemma removeDuplicates_ok b p s l base n : mem b (p ++ LVs l ++ s) -> base = length p -> n = length l ->
  StronglySorted (fun x y => le x y) l ->
  oks (removeDuplicates triv lt b base n)
      (fun r => exists u g, mem (fst r) (p ++ LVs u ++ g ++ s) /\ snd r = length u /\ length u + length g = length l /\
         Forall live g /\ StronglySorted (fun x y => lt x y = true) u /\ incl u l /\
         forall x, In x l -> exists y, In y u /\ lt x y = false /\ lt y x = false).
Proof.
  intros M -> -> S. unfold removeDuplicates. destruct l as [|x0 l].
  - apply oks_ok. exists [], []. simpl in *. repeat split; auto; try constructor. intros ? []. intros x [].
  - cbn [length Nat.eqb for_up]. set (L := x0 :: l) in *.
    rewrite (@rd_ok V triv b p x0 (LVs l ++ s)); [|exact M|lia]. cbn [bind]. rewrite irr. cbn [bind].
    set (I := fun k (st : buf V * nat * nat) => let '(b, first, nu) := st in
       exists u z g, mem b (p ++ LVs (u ++ [z]) ++ g ++ LVs (skipn k L) ++ s) /\ first = length u /\ nu = first + 1 /\
         length u + 1 + length g = k /\ k <= length L /\ Forall live g /\ StronglySorted (fun x y => lt x y = true) (u ++ [z]) /\
         incl (u ++ [z]) (firstn k L) /\
         forall x, In x (firstn k L) -> exists y, In y (u ++ [z]) /\ lt x y = false /\ lt y x = false).
    eapply oks_bind.
    + apply oks_for_up with (I := I).
      * exists [], x0, []. cbn. repeat split; auto; try lia.
        -- repeat constructor.
        -- intros x Hx. exact Hx.
        -- intros x [->|[]]. exists x. rewrite irr. simpl. auto.
      * intros k [[b' first] nu] Hk (u & z & g & Mb & -> & -> & Lk & Lk2 & Lg & Su & Inc & Cov).
        assert (Hkl : k < length L) by (unfold L; simpl; lia).
        destruct (nth_error L k) as [y|] eqn:Ny; [|apply nth_error_None in Ny; lia].
        assert (Sk : skipn k L = y :: skipn (Datatypes.S k) L).
        { clear -Ny. revert k Ny; induction L as [|h t IH]; intros [|k] Ny; simpl in *; try discriminate; [congruence|auto]. }
        assert (Fk : firstn (Datatypes.S k) L = firstn k L ++ [y]).
        { clear -Ny. revert k Ny; induction L as [|h t IH]; intros [|k] Ny; simpl in *; try discriminate; [congruence|].
          f_equal. auto. }
        assert (Ly : forall x, In x (firstn k L) -> le x y).
        { intros x Hx. rewrite <- (firstn_skipn k L), Sk in S. apply strong_app in S. destruct S as (_ & _ & C).
          apply C; simpl; auto. }
        rewrite Sk in Mb.
        rewrite (@rd_ok V triv b' (p ++ LVs u) z (g ++ LVs (y :: skipn (Datatypes.S k) L) ++ s)).
        2:{ eapply mem_cast; [exact Mb|]. rewrite map_app. lapp. auto. } 2:{ len. }
        cbn [bind].
        rewrite (@rd_ok V triv b' (p ++ LVs (u ++ [z]) ++ g) y (LVs (skipn (Datatypes.S k) L) ++ s)).
        2:{ eapply mem_cast; [exact Mb|]. lapp. auto. } 2:{ clear -Lk. rewrite !app_length, map_length, app_length. simpl. lia. }
        cbn [bind].
        assert (Zin : In z (firstn k L)) by (apply Inc, in_or_app; simpl; auto).
        replace (k + 1) with (Datatypes.S k) by lia.
        destruct (lt z y) eqn:Ezy.
        -- assert (Su' : StronglySorted (fun x y => lt x y = true) ((u ++ [z]) ++ [y])).
           { apply strong_app. repeat split; auto; [repeat constructor|]. intros x y' Hx [<-|[]].
             apply in_app_or in Hx. destruct Hx as [Hx|[<-|[]]]; auto.
             apply strong_app in Su. destruct Su as (_ & _ & C). eapply trans; [apply C; simpl; eauto|auto]. }
           assert (Inc' : incl ((u ++ [z]) ++ [y]) (firstn (Datatypes.S k) L)).
           { rewrite Fk. intros x Hx. apply in_app_or in Hx. apply in_or_app. destruct Hx; auto. }
           assert (Cov' : forall x, In x (firstn (Datatypes.S k) L) -> exists y0, In y0 ((u ++ [z]) ++ [y]) /\ lt x y0 = false /\ lt y0 x = false).
           { rewrite Fk. intros x Hx. apply in_app_or in Hx. destruct Hx as [Hx|[<-|[]]].
             - destruct (Cov x Hx) as (y0 & ? & ?). exists y0. split; auto. apply in_or_app. auto.
             - exists y. rewrite irr. split; auto. apply in_or_app. simpl. auto. }
           destruct (Nat.eqb_spec (length u + 1) k) as [Ek|Ek].
           ++ destruct g; [|simpl in Lk; lia]. apply oks_ok. exists (u ++ [z]), y, [].
              repeat split; auto; try (len; fail).
              eapply mem_cast; [exact Mb|]. rewrite !map_app. lapp. auto.
           ++ destruct g as [|c g]; [simpl in Lk; lia|]. pose proof (Forall_inv Lg) as Lc. apply Forall_inv_tail in Lg.
              eapply oks_bind.
              ** eapply (@massign_down V triv b' (p ++ LVs (u ++ [z])) y g c (LVs (skipn (Datatypes.S k) L) ++ s)); auto.
                 --- eapply mem_cast; [exact Mb|]. lapp. auto.
                 --- clear. len.
                 --- clear -Lk. rewrite app_length, map_length, app_length. simpl in *. lia.
              ** intros b2 M2. apply oks_ok. exists (u ++ [z]), y, (g ++ [LM]).
                 repeat split; auto; try (clear -Lk Hkl; len; fail).
                 --- eapply mem_cast; [exact M2|]. rewrite !map_app. lapp. auto.
                 --- apply Forall_app. split; auto. repeat constructor. discriminate.
        -- apply oks_ok. exists u, z, (g ++ [LV y]). repeat split; auto; try (clear -Lk Hkl; len; fail).
           ++ eapply mem_cast; [exact Mb|]. lapp. auto.
           ++ apply Forall_app. split; auto. repeat constructor. discriminate.
           ++ rewrite Fk. intros x Hx. apply in_or_app. left. auto.
           ++ rewrite Fk. intros x Hx. apply in_app_or in Hx. destruct Hx as [Hx|[<-|[]]]; auto.
              exists z. split; [apply in_or_app; simpl; auto|]. split; auto.
    + cbn beta. intros [[b' first] nu] (u & z & g & Mb & -> & -> & Lk & _ & Lg & Su & Inc & Cov). apply oks_ok.
      cbn [fst snd]. exists (u ++ [z]), g.
      assert (E : 0 + 1 + length l = length L) by reflexivity. change (Datatypes.S (length l)) with (length L).
      rewrite E in *. rewrite skipn_all in Mb. rewrite firstn_all in *.
      repeat split; auto; try (clear -Lk; len; fail).
Qed.
End Proofs.
