(** Correctness of the sorting routines over any iterator whose operations act on a list of elements. *)
From Coq Require Import List Arith ZArith Lia Bool Permutation Sorting.Sorted.
From Verif Require Import Base BaseProofs Mem MemProofs SortedSpec SortedProofs Introsort.
Import ListNotations.
Set Implicit Arguments.
Unset Strict Implicit.

Lemma upd_same {A} (l : list A) i x y : upd (upd l i x) i y = upd l i y.
Proof. revert i; induction l; destruct i; simpl; congruence. Qed.
Lemma map_upd {A B} (f : A -> B) l i x : map f (upd l i x) = upd (map f l) i (f x).
Proof. revert i; induction l; destruct i; simpl; congruence. Qed.
Lemma upd_comm {A} (l : list A) i j x y : i <> j -> upd (upd l i x) j y = upd (upd l j y) i x.
Proof. revert i j; induction l; destruct i, j; simpl; intros; auto; try congruence. f_equal; apply IHl; lia. Qed.
Lemma nth_error_lt {A} (l : list A) i x : nth_error l i = Some x -> i < length l.
Proof. intros H. apply nth_error_Some. congruence. Qed.

Lemma swap_perm {A} (l : list A) i j x y : i <> j -> nth_error l i = Some x -> nth_error l j = Some y ->
  Permutation l (upd (upd l i y) j x).
Proof.
  intros N Hi Hj. pose proof (nth_error_lt Hi) as Li. pose proof (nth_error_lt Hj) as Lj.
  apply Permutation_nth_error. split; [len|].
  exists (fun k => if k =? i then j else if k =? j then i else k). split.
  - intros a b. destruct (Nat.eqb_spec a i), (Nat.eqb_spec a j), (Nat.eqb_spec b i), (Nat.eqb_spec b j); lia.
  - intros k. destruct (Nat.eqb_spec k i), (Nat.eqb_spec k j); subst; try lia.
    + rewrite nth_error_upd_ne by auto. rewrite nth_error_upd_eq by auto. auto.
    + rewrite nth_error_upd_eq by len. auto.
    + rewrite !nth_error_upd_ne by auto. auto.
Qed.

Section Generic.
Variable V St T P : Type.
Variable lt : V -> V -> bool.
Variable I : iter V St T.
Variable key : P -> V.
(** the memory as a list of elements with holes (moved-from objects); the meaning of a temporary *)
Variable R : St -> list (option P) -> Prop.
Variable RT : T -> P -> Prop.

Record iter_ok : Prop := {
  key_ok : forall s l i e, R s l -> nth_error l i = Some (Some e) -> it_key I i s = Ok (key e);
  move_ok : forall s l dst src e, R s l -> nth_error l dst = Some None -> nth_error l src = Some (Some e) ->
    oks (it_move I dst src s) (fun s' => R s' (upd (upd l dst (Some e)) src None));
  take_ok : forall s l i e, R s l -> nth_error l i = Some (Some e) ->
    oks (it_take I i s) (fun r => RT (fst r) e /\ R (snd r) (upd l i None));
  put_ok : forall s l i t e, R s l -> nth_error l i = Some None -> RT t e ->
    oks (it_put I i t s) (fun s' => R s' (upd l i (Some e)));
  tkey_ok : forall t e, RT t e -> it_tkey I t = Ok (key e)
}.
Hypothesis H : iter_ok.
Hypothesis W : strict_weak_order lt.

Lemma comp_ok s l a b x y : R s l -> nth_error l a = Some (Some x) -> nth_error l b = Some (Some y) ->
  comp lt I a b s = Ok (lt (key x) (key y)).
Proof. intros M Ha Hb. unfold comp. rewrite (key_ok H M Ha), (key_ok H M Hb). auto. Qed.
Lemma tcomp_ok s l t b x y : R s l -> RT t x -> nth_error l b = Some (Some y) ->
  tcomp lt I t b s = Ok (lt (key x) (key y)).
Proof. intros M Ha Hb. unfold tcomp. rewrite (tkey_ok H Ha), (key_ok H M Hb). auto. Qed.

Lemma some_nth es i (e : P) : nth_error es i = Some e -> nth_error (map Some es) i = Some (Some e).
Proof. intros E. rewrite nth_error_map, E. auto. Qed.

Lemma exchange_ok s es a b x y : R s (map Some es) -> a <> b -> nth_error es a = Some x -> nth_error es b = Some y ->
  oks (exchange I a b s) (fun s' => R s' (map Some (upd (upd es a y) b x))).
Proof.
  intros M N Ha Hb. pose proof (nth_error_lt Ha) as La. pose proof (nth_error_lt Hb) as Lb.
  unfold exchange. eapply oks_bind; [eapply (take_ok H); [exact M|apply some_nth; eauto]|].
  intros [t s1] [Ht M1]. cbn [fst snd] in *.
  eapply oks_bind.
  { eapply (move_ok H); [exact M1| |].
    - rewrite nth_error_upd_eq by len. auto.
    - rewrite nth_error_upd_ne by auto. apply some_nth; eauto. }
  intros s2 M2. eapply oks_mono; [eapply (put_ok H); [exact M2| |exact Ht]|].
  - rewrite nth_error_upd_eq by len. auto.
  - intros s3 M3. rewrite !map_upd. rewrite !upd_same in M3. exact M3.
Qed.

(** * Insertion sort *)
Lemma moveBackward_ok A : forall s C n last d, R s (map Some A ++ None :: C) -> n = length A -> last = length A ->
  d = length A + 1 -> oks (moveBackward I n last d s) (fun s' => R s' (None :: map Some A ++ C)).
Proof.
  induction A as [|y A IH] using rev_ind; intros s C n last d M -> -> ->; simpl.
  - apply oks_ok. exact M.
  - rewrite app_length, Nat.add_1_r. cbn [length moveBackward]. rewrite !Nat.add_1_r.
    rewrite !sub_ix_ok by lia. cbn [bind].
    replace (S (S (length A)) - 1) with (S (length A)) by lia. replace (S (length A) - 1) with (length A) by lia.
    rewrite map_app in M. cbn [map] in M. rewrite <- app_assoc in M. cbn [app] in M.
    eapply oks_bind.
    { eapply (move_ok H) with (e := y); [exact M| |].
      - change (Some y :: None :: C) with ([Some y] ++ None :: C). rewrite app_assoc. apply nth_error_app_mid. len.
      - apply nth_error_app_mid. len. }
    intros s1 M1. eapply oks_mono; [eapply (IH s1 (Some y :: C)); auto; try lia|].
    + change (Some y :: None :: C) with ([Some y] ++ None :: C) in M1. rewrite app_assoc in M1.
      rewrite upd_app in M1 by len. rewrite <- app_assoc in M1. cbn [app] in M1. rewrite upd_app in M1 by len. exact M1.
    + intros s2 M2. rewrite map_app, <- app_assoc. exact M2.
Qed.

Lemma linear_ok e t A : forall s C fuel last next, R s (map Some A ++ None :: C) -> RT t e -> A <> [] ->
  (forall z A', A = z :: A' -> lt (key e) (key z) = false) ->
  last = length A -> next = length A - 1 -> length A <= fuel ->
  oks (linear_loop lt I fuel last next t s) (fun s' => exists A1 y A2, A = A1 ++ y :: A2 /\
    R s' (map Some (A1 ++ [y]) ++ Some e :: map Some A2 ++ C) /\ lt (key e) (key y) = false /\
    Forall (fun z => lt (key e) (key z) = true) A2).
Proof.
  induction A as [|y A IH] using rev_ind; intros s C fuel last next M Ht Ne Hs -> -> L; [congruence|].
  rewrite map_app in M. cbn [map] in M. rewrite <- app_assoc in M. cbn [app] in M.
  replace (length (A ++ [y]) - 1) with (length A) by len.
  assert (Ny : nth_error (map Some A ++ Some y :: None :: C) (length A) = Some (Some y)) by (apply nth_error_app_mid; len).
  assert (Nn : nth_error (map Some A ++ Some y :: None :: C) (length (A ++ [y])) = Some None).
  { change (Some y :: None :: C) with ([Some y] ++ None :: C). rewrite app_assoc. apply nth_error_app_mid. len. }
  destruct fuel as [|fuel]; [len|]. cbn [linear_loop]. rewrite (tcomp_ok M Ht Ny). cbn [bind].
  destruct (lt (key e) (key y)) eqn:E.
  - assert (NA : A <> []) by (intros ->; rewrite (Hs y [] eq_refl) in E; discriminate).
    assert (1 <= length A) by (destruct A; [congruence|simpl; lia]).
    eapply oks_bind; [eapply (move_ok H); [exact M|exact Nn|exact Ny]|]. intros s1 M1.
    rewrite sub_ix_ok by lia. cbn [bind].
    eapply oks_mono; [eapply (IH s1 (Some y :: C)); auto; try len|].
    + change (Some y :: None :: C) with ([Some y] ++ None :: C) in M1. rewrite app_assoc in M1.
      rewrite upd_app in M1 by len. rewrite <- app_assoc in M1. cbn [app] in M1. rewrite upd_app in M1 by len. exact M1.
    + intros z A' EA. apply (Hs z (A' ++ [y])). rewrite EA. auto.
    + intros s2 (A1 & z & A2 & EA & M2 & Hz & F). exists A1, z, (A2 ++ [y]).
      split; [rewrite EA, <- app_assoc; auto|]. split; [|split; [auto|apply Forall_app; auto]].
      rewrite map_app with (l := A2), <- app_assoc. exact M2.
  - eapply oks_mono; [eapply (put_ok H); [exact M|exact Nn|exact Ht]|].
    intros s1 M1. exists A, y, []. split; auto. split; [|auto].
    change (Some y :: None :: C) with ([Some y] ++ None :: C) in M1. rewrite app_assoc in M1.
    rewrite upd_app in M1 by len. rewrite map_app. exact M1.
Qed.

Notation ordered es := (StronglySorted (fun x y => lt y x = false) (map key es)).

Lemma ordered_insert A1 y A2 e : ordered (A1 ++ y :: A2) -> lt (key e) (key y) = false ->
  Forall (fun z => lt (key e) (key z) = true) A2 -> ordered ((A1 ++ [y]) ++ e :: A2).
Proof.
  intros S E F. change (y :: A2) with ([y] ++ A2) in S. rewrite app_assoc in S.
  rewrite map_app in *. apply strong_app in S. destruct S as (S1 & S2 & S3).
  cbn [map]. apply strong_app. split; [auto|split].
  - constructor; auto. apply Forall_map. eapply Forall_impl; [|exact F].
    intros z Hz. apply (lt_le W). exact Hz.
  - intros a b Ia [<-|Ib]; [|auto].
    rewrite map_app, in_app_iff in Ia. destruct Ia as [Ia|[<-|[]]]; auto.
    rewrite map_app in S1. apply strong_app in S1. destruct S1 as (_ & _ & S1).
    apply (le_trans W) with (key y); auto. apply S1; simpl; auto.
Qed.

Theorem insertionSort_ok s es n : R s (map Some es) -> n = length es ->
  oks (insertionSort lt I n s) (fun s' => exists es', R s' (map Some es') /\ Permutation es es' /\ ordered es').
Proof.
  intros M ->. destruct es as [|e0 es0].
  { apply oks_ok. exists []. simpl; auto using SSorted_nil. }
  set (es := e0 :: es0) in *. unfold insertionSort.
  eapply oks_mono.
  - eapply oks_for_up with (I := fun i s => exists A B, R s (map Some (A ++ B)) /\ length A = i /\ A <> [] /\
        Permutation es (A ++ B) /\ ordered A).
    { exists [e0], es0. split; [exact M|]. split; [auto|]. split; [discriminate|]. split; [apply Permutation_refl|].
      simpl. constructor; constructor. }
    intros i s1 Hi (A & B & M1 & LA & NA & Pe & O). subst i.
    pose proof (Permutation_length Pe) as LE.
    destruct B as [|e B]; [exfalso; unfold es in *; len|].
    rewrite map_app in M1. cbn [map] in M1. destruct A as [|a0 A0]; [congruence|].
    rewrite (comp_ok M1 (x := e) (y := a0)); [|apply nth_error_app_mid; len|reflexivity]. cbn [bind].
    destruct (lt (key e) (key a0)) eqn:E.
    + eapply oks_bind; [eapply (take_ok H); [exact M1|apply nth_error_app_mid; len]|].
      intros [t s2] [Ht M2]. cbn [fst snd] in *. rewrite upd_app in M2 by len.
      eapply oks_bind; [eapply moveBackward_ok; [exact M2|len..]|].
      intros s3 M3. eapply oks_mono; [eapply (put_ok H); [exact M3|reflexivity|exact Ht]|].
      intros s4 M4. exists (e :: a0 :: A0), B. split; [|split; [|split; [|split]]].
      * cbn [upd] in M4. change (e :: a0 :: A0) with ([e] ++ a0 :: A0). rewrite <- app_assoc, map_app with (l := [e]), map_app. exact M4.
      * simpl; lia.
      * discriminate.
      * eapply perm_trans; [exact Pe|]. apply Permutation_sym, (Permutation_middle (a0 :: A0)).
      * cbn [map]. constructor; [exact O|]. constructor; [apply (lt_le W); auto|].
        cbn [map] in O. apply StronglySorted_inv in O. destruct O as [_ O].
        eapply Forall_impl; [|exact O]. intros z Hz. apply (le_trans W) with (key a0); auto. apply (lt_le W). auto.
    + unfold unguardedLinearInsert.
      eapply oks_bind; [eapply (take_ok H); [exact M1|apply nth_error_app_mid; len]|].
      intros [t s2] [Ht M2]. cbn [fst snd] in *. rewrite upd_app in M2 by len.
      rewrite sub_ix_ok by (simpl; lia). cbn [bind].
      eapply oks_mono; [eapply linear_ok; [exact M2|exact Ht|discriminate| |auto|auto|auto]|].
      { intros z A' Ez. injection Ez as <- <-. exact E. }
      intros s3 (A1 & y & A2 & EA & M3 & Hy & F). rewrite EA in O, Pe.
      exists ((A1 ++ [y]) ++ e :: A2), B. split; [|split; [|split; [|split]]].
      * rewrite <- app_assoc, map_app with (l := A1 ++ [y]). cbn [app map]. rewrite map_app with (l := A2). exact M3.
      * rewrite EA. len.
      * destruct A1; discriminate.
      * eapply perm_trans; [exact Pe|]. rewrite <- !app_assoc. apply Permutation_app_head. cbn [app].
        apply perm_skip. apply Permutation_sym, Permutation_middle.
      * apply ordered_insert; auto.
  - intros s' (A & B & M1 & LA & NA & Pe & O). pose proof (Permutation_length Pe) as LE.
    assert (B = []) as -> by (destruct B; auto; exfalso; unfold es in *; len).
    rewrite app_nil_r in *. eauto.
Qed.

(** * The partitioning loop *)
(** After computeMedian: the pivot is at [lo] and each scan has an element that stops it. *)
Definition split_ready (lo hi : nat) (es : list P) (pv : P) (k j : nat) : Prop :=
  nth_error es lo = Some pv /\
  (exists y, nth_error es k = Some y /\ lt (key y) (key pv) = false) /\
  (exists x, nth_error es j = Some x /\ lt (key pv) (key x) = false).

Lemma median_case lo hi s es m u w v0 vm vu vw : R s (map Some es) ->
  lo < m < hi -> lo < u < hi -> lo < w < hi -> u <> m -> w <> m ->
  nth_error es lo = Some v0 -> nth_error es m = Some vm -> nth_error es u = Some vu -> nth_error es w = Some vw ->
  lt (key vm) (key vu) = false -> lt (key vw) (key vm) = false ->
  oks (exchange I lo m s) (fun s' => exists es' pv k j, R s' (map Some es') /\ Permutation es es' /\
    lo < k < hi /\ lo < j < hi /\ split_ready lo hi es' pv k j).
Proof.
  intros M Hm Hu Hw Nu Nw E0 Em Eu Ew L1 L2.
  pose proof (nth_error_lt E0). pose proof (nth_error_lt Em).
  eapply oks_mono; [eapply exchange_ok; [exact M|lia|exact E0|exact Em]|].
  intros s' M'. exists (upd (upd es lo vm) m v0), vm, w, u. split; auto. split; [apply swap_perm; auto; lia|].
  split; [lia|]. split; [lia|]. split; [|split].
  - rewrite nth_error_upd_ne by lia. apply nth_error_upd_eq. auto.
  - exists vw. split; auto. rewrite !nth_error_upd_ne by lia. auto.
  - exists vu. split; auto. rewrite !nth_error_upd_ne by lia. auto.
Qed.

Lemma median_ok lo hi s es a b c : R s (map Some es) -> hi <= length es ->
  lo < a -> a < b -> b < c -> c < hi ->
  oks (computeMedian lt I lo a b c s) (fun s' => exists es' pv k j, R s' (map Some es') /\ Permutation es es' /\
    lo < k < hi /\ lo < j < hi /\ split_ready lo hi es' pv k j).
Proof.
  intros M L H1 H2 H3 H4.
  destruct (nth_error es lo) as [v0|] eqn:E0; [|apply nth_error_None in E0; lia].
  destruct (nth_error es a) as [va|] eqn:Ea; [|apply nth_error_None in Ea; lia].
  destruct (nth_error es b) as [vb|] eqn:Eb; [|apply nth_error_None in Eb; lia].
  destruct (nth_error es c) as [vc|] eqn:Ec; [|apply nth_error_None in Ec; lia].
  unfold computeMedian.
  rewrite (comp_ok M (some_nth Ea) (some_nth Eb)), (comp_ok M (some_nth Eb) (some_nth Ec)), (comp_ok M (some_nth Ea) (some_nth Ec)).
  cbn [bind].
  destruct (lt (key va) (key vb)) eqn:Lab; [destruct (lt (key vb) (key vc)) eqn:Lbc|]; [|destruct (lt (key va) (key vc)) eqn:Lac..].
  - apply median_case with (u := a) (w := c) (v0 := v0) (vm := vb) (vu := va) (vw := vc) (es := es); auto; try lia;
    apply (lt_le W); auto.
  - apply median_case with (u := a) (w := b) (v0 := v0) (vm := vc) (vu := va) (vw := vb) (es := es); auto; try lia;
    apply (lt_le W); auto.
  - apply median_case with (u := c) (w := b) (v0 := v0) (vm := va) (vu := vc) (vw := vb) (es := es); auto; try lia;
    apply (lt_le W); auto.
  - apply median_case with (u := b) (w := c) (v0 := v0) (vm := va) (vu := vb) (vw := vc) (es := es); auto; try lia;
    apply (lt_le W); auto.
  - destruct (lt (key vb) (key vc)) eqn:Lbc.
    + apply median_case with (u := b) (w := a) (v0 := v0) (vm := vc) (vu := vb) (vw := va) (es := es); auto; try lia;
      apply (lt_le W); auto.
    + apply median_case with (u := c) (w := a) (v0 := v0) (vm := vb) (vu := vc) (vw := va) (es := es); auto; try lia.
Qed.

Lemma scan_up_ok s es pivot pv k y : R s (map Some es) -> nth_error es pivot = Some pv ->
  nth_error es k = Some y -> lt (key y) (key pv) = false ->
  forall fuel f, f <= k -> k - f <= fuel ->
  oks (scan_up lt I fuel f pivot s) (fun r => f <= r <= k /\ exists z, nth_error es r = Some z /\ lt (key z) (key pv) = false).
Proof.
  intros M Ep Ek Hk. pose proof (nth_error_lt Ek) as Lk.
  induction fuel as [|fuel IH]; intros f L F;
    (destruct (nth_error es f) as [z|] eqn:Ez; [|apply nth_error_None in Ez; lia]);
    cbn [scan_up]; rewrite (comp_ok M (some_nth Ez) (some_nth Ep)); cbn [bind];
    destruct (lt (key z) (key pv)) eqn:Lz; try (apply oks_ok; split; [lia|eauto]).
  - assert (f = k) by lia. congruence.
  - assert (f <> k) by (intros ->; congruence).
    eapply oks_mono; [apply IH; lia|]. intros r (Hr & Hz). split; [lia|auto].
Qed.

Lemma scan_down_ok s es pivot pv j x : R s (map Some es) -> nth_error es pivot = Some pv ->
  nth_error es j = Some x -> lt (key pv) (key x) = false ->
  forall fuel l, j <= l -> l < length es -> l - j <= fuel ->
  oks (scan_down lt I fuel l pivot s) (fun r => j <= r <= l /\ exists z, nth_error es r = Some z /\ lt (key pv) (key z) = false).
Proof.
  intros M Ep Ej Hj.
  induction fuel as [|fuel IH]; intros l L Ll F;
    (destruct (nth_error es l) as [z|] eqn:Ez; [|apply nth_error_None in Ez; lia]);
    cbn [scan_down]; rewrite (comp_ok M (some_nth Ep) (some_nth Ez)); cbn [bind];
    destruct (lt (key pv) (key z)) eqn:Lz; try (apply oks_ok; split; [lia|eauto]).
  - assert (l = j) by lia. congruence.
  - assert (l <> j) by (intros ->; congruence). rewrite sub_ix_ok by lia. cbn [bind].
    eapply oks_mono; [apply IH; lia|]. intros r (Hr & Hz). split; [lia|auto].
Qed.

Lemma partition_ok lo hi pv n : hi <= n -> forall fuel s es f l k j, R s (map Some es) -> hi <= length es ->
  split_ready lo hi es pv k j -> lo < f -> f <= k < hi -> lo < j < l -> l <= hi -> l - f < fuel ->
  oks (unguardedPartition lt I n fuel f l lo s) (fun r => lo < fst r < hi /\ exists es', R (snd r) (map Some es') /\ Permutation es es').
Proof.
  intros Hn. induction fuel as [|fuel IH]; intros s es f l k j M L (Ep & (y & Ek & Hk) & (x & Ej & Hj)) Hf Hk2 Hj2 Hl F; [lia|].
  cbn [unguardedPartition].
  eapply oks_bind; [eapply (scan_up_ok M Ep Ek Hk); lia|]. intros f' (Hf' & z & Ez & Hz).
  rewrite sub_ix_ok by lia. cbn [bind].
  eapply oks_bind; [eapply (scan_down_ok M Ep Ej Hj); lia|]. intros l' (Hl' & u & Eu & Hu).
  destruct (Nat.ltb_spec f' l').
  - eapply oks_bind; [eapply exchange_ok; [exact M| |exact Ez|exact Eu]; lia|]. intros s' M'.
    pose proof (nth_error_lt Ez). pose proof (nth_error_lt Eu).
    eapply oks_mono; [eapply IH with (k := l') (j := f'); [exact M'|len| |lia..]|].
    + split; [|split].
      * rewrite !nth_error_upd_ne by lia. auto.
      * exists z. split; auto. apply nth_error_upd_eq. len.
      * exists u. split; auto. rewrite nth_error_upd_ne by lia. apply nth_error_upd_eq. len.
    + intros [c s2] (Hc & es' & M2 & Pe). split; auto. exists es'. split; auto.
      eapply perm_trans; [|exact Pe]. apply swap_perm; auto; lia.
  - apply oks_ok. split; [simpl; lia|]. exists es. auto.
Qed.

Lemma pivot_ok lo hi s es : R s (map Some es) -> hi <= length es -> 4 <= hi - lo ->
  oks (unguardedPartitionPivot lt I lo hi s) (fun r => lo < fst r < hi /\ exists es', R (snd r) (map Some es') /\ Permutation es es').
Proof.
  intros M L H4. unfold unguardedPartitionPivot. rewrite sub_ix_ok by lia. cbn [bind].
  pose proof (Nat.div_mod (hi - lo) 2 ltac:(lia)) as D. pose proof (Nat.mod_upper_bound (hi - lo) 2 ltac:(lia)) as D2.
  eapply oks_bind; [eapply (@median_ok lo hi); [exact M|auto|lia..]|].
  intros s1 (es1 & pv & k & j & M1 & Pe & Hk & Hj & Sp). pose proof (Permutation_length Pe).
  eapply oks_mono; [eapply (@partition_ok lo hi pv hi (le_n hi)) with (k := k) (j := j); [exact M1|lia|exact Sp|lia..]|].
  intros r (Hr & es2 & M2 & Pe2). split; auto. exists es2. split; auto. eapply perm_trans; eauto.
Qed.

Definition stack_ok (n slots : nat) (ranges : list nat) (nR : nat) : Prop :=
  length ranges = slots /\ nR < slots /\ nth nR ranges 0 <= n /\
  (forall i, i < nR -> nth i ranges 0 < nth (S i) ranges 0).

Lemma stack_ge ranges nR : (forall i, i < nR -> nth i ranges 0 < nth (S i) ranges 0) -> forall i, i <= nR -> i <= nth i ranges 0.
Proof. intros G. induction i as [|i IH]; intros L; [lia|]. specialize (G i ltac:(lia)). lia. Qed.

Lemma intro_ok n slots : forall fuel s es ranges nR, R s (map Some es) -> n = length es ->
  stack_ok n slots ranges nR -> 2 * nth nR ranges 0 - nR <= fuel ->
  oks (intro_loop lt I fuel ranges nR s) (fun s' => exists es', R s' (map Some es') /\ Permutation es es') \/
  (slots + 62 < n /\ intro_loop lt I fuel ranges nR s = Fault FOob).
Proof.
  induction fuel as [|fuel IH]; intros s es ranges nR M En (Ls & Ln & Lt & G) F.
  - assert (nR = 0) as -> by (pose proof (@stack_ge ranges nR G nR ltac:(lia)); destruct nR; lia).
    left. apply oks_ok. eauto.
  - cbn [intro_loop]. destruct (Nat.eqb_spec nR 0) as [->|N0]; [left; apply oks_ok; eauto|].
    rewrite (@aget_nth _ ranges (nR - 1) 0), (@aget_nth _ ranges nR 0) by lia. cbn [bind].
    pose proof (G (nR - 1) ltac:(lia)) as G1. replace (S (nR - 1)) with nR in G1 by lia.
    pose proof (@stack_ge ranges nR G (nR - 1) ltac:(lia)) as G2.
    pose proof (@stack_ge ranges nR G nR ltac:(lia)) as G3.
    unfold INTROSORT_THRESHOLD. destruct (Nat.ltb_spec 64 (nth nR ranges 0 - nth (nR - 1) ranges 0)) as [B|B].
    + destruct (Nat.lt_ge_cases (nR + 1) slots) as [C|C].
      2:{ right. split; [lia|]. unfold aset. destruct (Nat.ltb_spec (nR + 1) (length ranges)); [lia|]. auto. }
      rewrite aset_ok by lia. cbn [bind].
      destruct (@pivot_ok (nth (nR - 1) ranges 0) (nth nR ranges 0) s es M) as ([cut s1] & E1 & Hc & es1 & M1 & Pe); [lia|lia|].
      cbn [fst snd] in *. rewrite E1. cbn [bind]. rewrite aset_ok by len. cbn [bind].
      pose proof (Permutation_length Pe).
      destruct (IH s1 es1 (upd (upd ranges (nR + 1) (nth nR ranges 0)) nR cut) (nR + 1)) as [[s2 (E2 & es2 & M2 & Pe2)]|[B2 E2]]; auto.
      * congruence.
      * split; [len|]. split; [lia|]. split.
        -- rewrite nth_upd_ne by lia. rewrite nth_upd_eq by lia. lia.
        -- intros i Hi. destruct (Nat.eq_dec i nR) as [->|Ni].
           ++ rewrite nth_upd_eq by len. rewrite nth_upd_ne by lia. replace (S nR) with (nR + 1) by lia. rewrite nth_upd_eq by lia. lia.
           ++ destruct (Nat.eq_dec (S i) nR) as [Ei|Ni2].
              ** rewrite Ei. rewrite nth_upd_eq by len. rewrite !nth_upd_ne by lia. replace i with (nR - 1) by lia. lia.
              ** rewrite !nth_upd_ne by lia. apply G. lia.
      * rewrite nth_upd_ne by lia. rewrite nth_upd_eq by lia. lia.
      * left. exists s2. split; auto. exists es2. split; auto. eapply perm_trans; eauto.
    + destruct (IH s es ranges (nR - 1)) as [?|?]; auto.
      * split; [auto|]. split; [lia|]. split; [lia|]. intros i Hi. apply G. lia.
      * lia.
Qed.

Theorem sort_ok slots s es n : 2 <= slots -> R s (map Some es) -> n = length es ->
  oks (sort_with lt I slots n s) (fun s' => exists es', R s' (map Some es') /\ Permutation es es' /\ ordered es') \/
  (slots + 62 < n /\ sort_with lt I slots n s = Fault FOob).
Proof.
  intros Hs M En. unfold sort_with, INTROSORT_THRESHOLD. destruct (Nat.ltb_spec 64 n).
  - unfold introsortLoop. rewrite aset_ok by len. cbn [bind]. rewrite aset_ok by len. cbn [bind].
    destruct (@intro_ok n slots (2 * n) s es (upd (upd (repeat 0 slots) 0 0) 1 n) 1) as [[s1 (E1 & es1 & M1 & Pe)]|[B E]]; auto.
    + split; [len|]. split; [lia|]. split.
      * rewrite nth_upd_eq by len. lia.
      * intros i Hi. assert (i = 0) as -> by lia. rewrite nth_upd_ne by lia. rewrite nth_upd_eq by len. rewrite nth_upd_eq by len. lia.
    + rewrite nth_upd_eq by len. lia.
    + left. rewrite E1. cbn [bind]. pose proof (Permutation_length Pe).
      eapply oks_mono; [eapply insertionSort_ok; [exact M1|congruence]|].
      intros s2 (es2 & M2 & Pe2 & O). exists es2. split; auto. split; auto. eapply perm_trans; eauto.
    + right. rewrite E. auto.
  - left. cbn [bind]. eapply insertionSort_ok; eauto.
Qed.
End Generic.

(** * Instances *)
Section Inst.
Variable A : Type.
Variable triv : bool.
Definition slot {P} (f : P -> A) (o : option P) : lcell A := match o with Some e => LV (f e) | None => LM end.

Lemma take_nth (b : buf A) L i v : mem triv b L -> nth_error L i = Some (LV v) ->
  oks (take triv b i) (fun r => fst r = Obj v /\ mem triv (snd r) (upd L i LM)).
Proof.
  intros M E. apply nth_error_split in E. destruct E as (p & s & -> & Lp).
  rewrite upd_app by auto. eapply MemProofs.take_ok; eauto.
Qed.
Lemma store_nth (b : buf A) L i c x lx : mem triv b L -> nth_error L i = Some c -> live c -> crel triv x lx ->
  oks (store triv b i x) (fun b' => mem triv b' (upd L i lx)).
Proof.
  intros M E Hc Hx. apply nth_error_split in E. destruct E as (p & s & -> & Lp).
  rewrite upd_app by auto. eapply store_ok; eauto.
Qed.
Lemma massign_nth (b : buf A) L dst src c v : mem triv b L -> nth_error L dst = Some c -> live c ->
  nth_error L src = Some (LV v) -> dst <> src ->
  oks (massign triv b dst src) (fun b' => mem triv b' (upd (upd L src LM) dst (LV v))).
Proof.
  intros M Ed Hc Es N. unfold massign. eapply oks_bind; [eapply take_nth; eauto|].
  intros [x b1] [Ex M1]. cbn [fst snd] in *. subst x.
  eapply store_nth; eauto; [rewrite nth_error_upd_ne; eauto|simpl; auto].
Qed.

Lemma upd_slots {P} (f : P -> A) p l s i o : i < length l ->
  upd (p ++ map (slot f) l ++ s) (length p + i) (slot f o) = p ++ map (slot f) (upd l i o) ++ s.
Proof.
  intros L. destruct (split_nth l L) as (a & x & c & -> & La).
  rewrite upd_app by auto. rewrite !map_app. cbn [map]. rewrite <- !app_assoc. cbn [app].
  rewrite !app_assoc. rewrite upd_app by len. auto.
Qed.
Lemma nth_slots {P} (f : P -> A) p l s i o : nth_error l i = Some o ->
  nth_error (p ++ map (slot f) l ++ s) (length p + i) = Some (slot f o).
Proof.
  intros E. apply nth_error_split in E. destruct E as (a & c & -> & La).
  rewrite map_app. cbn [map]. rewrite <- !app_assoc. cbn [app]. rewrite app_assoc. apply nth_error_app_mid. len.
Qed.

(** One buffer, holding the [f]-components. *)
Definition RB {P} (f : P -> A) p s (b : buf A) (l : list (option P)) : Prop := mem triv b (p ++ map (slot f) l ++ s).

Lemma rb_key {P} (f : P -> A) p s b l i e : RB f p s b l -> nth_error l i = Some (Some e) -> rd b (length p + i) = Ok (f e).
Proof. intros M E. eapply rd_nth; [exact M|]. rewrite (nth_slots f p s E). auto. Qed.
Lemma rb_move {P} (f : P -> A) p s b l dst src e : RB f p s b l -> nth_error l dst = Some None -> nth_error l src = Some (Some e) ->
  oks (massign triv b (length p + dst) (length p + src)) (fun b' => RB f p s b' (upd (upd l dst (Some e)) src None)).
Proof.
  intros M Ed Es. pose proof (nth_error_lt Ed). pose proof (nth_error_lt Es).
  assert (dst <> src) by congruence.
  eapply oks_mono; [eapply massign_nth; [exact M|apply (nth_slots f p s Ed)|discriminate|apply (nth_slots f p s Es)|lia]|].
  intros b' M'. unfold RB. rewrite upd_comm by auto. eapply mem_cast; [exact M'|].
  change (LM : lcell A) with (slot f None). rewrite upd_slots by auto. fold (slot f (Some e)). rewrite upd_slots by len. auto.
Qed.
Lemma rb_take {P} (f : P -> A) p s b l i e : RB f p s b l -> nth_error l i = Some (Some e) ->
  oks (take triv b (length p + i)) (fun r => fst r = Obj (f e) /\ RB f p s (snd r) (upd l i None)).
Proof.
  intros M E. pose proof (nth_error_lt E). eapply oks_mono; [eapply take_nth; [exact M|apply (nth_slots f p s E)]|].
  intros r [E1 M1]. split; auto. unfold RB. rewrite <- (upd_slots f p s None) by auto. exact M1.
Qed.
Lemma rb_put {P} (f : P -> A) p s b l i e : RB f p s b l -> nth_error l i = Some None ->
  oks (store triv b (length p + i) (Obj (f e))) (fun b' => RB f p s b' (upd l i (Some e))).
Proof.
  intros M E. pose proof (nth_error_lt E).
  eapply oks_mono; [eapply (@store_nth b) with (lx := LV (f e)); [exact M|apply (nth_slots f p s E)|discriminate|simpl; auto]|].
  intros b' M1. unfold RB. rewrite <- (upd_slots f p s (Some e)) by auto. exact M1.
Qed.
End Inst.

Lemma plain_ok V tv p s : iter_ok (@plain_iter V tv (length p)) (fun v => v) (RB tv (fun v : V => v) p s) (fun t v => t = Obj v).
Proof.
  split; cbn; intros.
  - exact (rb_key H H0).
  - exact (rb_move H H0 H1).
  - exact (rb_take H H0).
  - subst. exact (rb_put e H H0).
  - subst. auto.
Qed.

Lemma dual_ok V W tv tw p s q u : iter_ok (@dual_iter V W tv tw (length p) (length q)) (@fst V W)
  (fun st l => RB tv (@fst V W) p s (fst st) l /\ RB tw (@snd V W) q u (snd st) l)
  (fun t e => t = (Obj (fst e), Obj (snd e))).
Proof.
  split; cbn; intros.
  - destruct H. eapply rb_key; eauto.
  - destruct H. eapply oks_bind; [eapply rb_move; eauto|]. intros a Ha.
    eapply oks_bind; [eapply rb_move; eauto|]. intros b Hb. apply oks_ok. auto.
  - destruct H. eapply oks_bind; [eapply rb_take; eauto|]. intros [x a] [Hx Ha].
    eapply oks_bind; [eapply rb_take; eauto|]. intros [y b] [Hy Hb]. apply oks_ok. cbn [fst snd] in *. subst. auto.
  - destruct H. subst t. cbn [fst snd]. eapply oks_bind; [eapply rb_put; eauto|]. intros a Ha.
    eapply oks_bind; [eapply rb_put; eauto|]. intros b Hb. apply oks_ok. auto.
  - subst. auto.
Qed.
