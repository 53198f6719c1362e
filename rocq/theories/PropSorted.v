(** Properties C14 - C19: sorted ranges and the SortedArray class. Statements use SortedSpec and
    SortedArraySpec only besides the modelled functions. *)
From Coq Require Import List Arith ZArith Lia Bool Permutation Sorting.Sorted.
From Verif Require Import Base Mem BufferManip Sorted SortedSpec SortedArray SortedArraySpec.
From Verif Require BaseProofs MemProofs BufferManipProofs SortedProofs SortedProofs2 SortedProofs3 SortedArrayProofs.
Import ListNotations.
Set Implicit Arguments.
Unset Strict Implicit.

(** A buffer with the values [l] after the cells [p] and before the cells [s]. *)
Notation stored p l s := (p ++ map (@Obj _) l ++ s).

Section Abs.
Import MemProofs.
Variable V : Type.
Variable triv : bool.
Definition abs (c : cell V) : lcell V := match c with Obj v => LV v | Raw => LN | Hollow => LM end.
Lemma abs_mem (b : buf V) : mem triv b (map abs b).
Proof. induction b as [|c b IH]; constructor; auto. destruct c; simpl; auto. Qed.
Lemma abs_objs (l : list V) : map abs (map (@Obj V) l) = map LV l.
Proof. rewrite map_map. auto. Qed.
Lemma stored_mem (p : buf V) l s : mem triv (stored p l s) (map abs p ++ map LV l ++ map abs s).
Proof. rewrite <- abs_objs, <- !map_app. apply abs_mem. Qed.
Lemma mem_is_buffer (b e : buf V) : mem triv b (map abs e) -> is_buffer triv b e.
Proof.
  intros M. unfold is_buffer. destruct triv eqn:E.
  - split; [apply mem_length in M; rewrite map_length in M; auto|].
    revert e M. induction b as [|c b IH]; intros [|c' e] M i v H; inversion M; subst; try (destruct i; discriminate).
    destruct i; simpl in *; eauto. injection H as ->. simpl in *. subst. auto.
  - revert e M. induction b as [|c b IH]; intros [|c' e] M; inversion M; subst; auto.
    f_equal; auto. destruct c'; simpl in *; auto; destruct H2; congruence.
Qed.
Lemma raws n : map abs (repeat Raw n) = repeat LN n.
Proof. induction n; simpl; congruence. Qed.
End Abs.

(** C14: find returns the lower bound. The cells around the range are arbitrary, so nothing outside it
    is read (reading a cell without a value is a Fault). *)
Theorem C14_find : forall V (lt : V -> V -> bool), strict_weak_order lt ->
  forall (p s : buf V) l v, sorted lt l ->
  find lt (stored p l s) (length p) (length l) v = Ok (number_less lt l v) /\
  (forall i x, nth_error l i = Some x -> (i < number_less lt l v <-> lt x v = true)).
Proof.
  intros V lt W p s l v S. apply SortedProofs.sorted_strong in S.
  destruct (SortedProofs.split_less W v S) as (a & c & E & Fa & Fc).
  assert (N : number_less lt l v = length a) by (rewrite E; apply SortedProofs.number_less_split; auto).
  rewrite N. split.
  - pose proof (stored_mem true p l s) as M. rewrite E in M.
    eapply SortedProofs.find_ok; [rewrite E; exact M|exact Fa|exact Fc|rewrite map_length; auto|rewrite E, app_length; auto].
  - intros i x Hi. rewrite Forall_forall in Fa, Fc. rewrite E in Hi. split; intros H.
    + rewrite nth_error_app1 in Hi by auto. apply Fa. eapply nth_error_In; eauto.
    + destruct (Nat.lt_ge_cases i (length a)); auto. rewrite nth_error_app2 in Hi by auto.
      apply nth_error_In in Hi. rewrite (Fc x Hi) in H. discriminate.
Qed.
Print Assumptions C14_find.

Theorem C14_contains : forall V (lt eqb : V -> V -> bool), total_order lt eqb ->
  forall (p s : buf V) l v, increasing lt l ->
  exists r, contains lt eqb (stored p l s) (length p) (length l) v = Ok r /\ (r = true <-> In v l).
Proof.
  intros V lt eqb T p s l v I. apply SortedProofs.increasing_strong in I.
  exists (SortedProofs2.present eqb (fun x => x) l v). split.
  - eapply (@SortedProofs3.contains_ok V V true lt eqb (fun x => x) T); auto.
    + rewrite map_id. apply stored_mem.
    + rewrite map_length. auto.
  - rewrite (SortedProofs2.present_in (fun x => x) T), map_id. tauto.
Qed.
Print Assumptions C14_contains.
Example C14_case :
  find Nat.ltb (stored [Raw] [2;4;4;9] [Hollow]) 1 4 5 = Ok 3 /\
  contains Nat.ltb Nat.eqb (stored [Raw] [2;4;7;9] []) 1 4 7 = Ok true /\
  contains Nat.ltb Nat.eqb (stored [] [2;4;7;9] [Raw]) 0 4 10 = Ok false.
Proof. repeat split. Qed.

(** C15: the adjacent comparisons decide the property of all pairs. *)
Theorem C15_isSorted : forall V (lt : V -> V -> bool), strict_weak_order lt ->
  forall l, isSorted lt l = true <-> sorted lt l.
Proof. intros. apply SortedProofs.isSorted_iff. auto. Qed.
Print Assumptions C15_isSorted.
Theorem C15_isSortedUnique : forall V (lt : V -> V -> bool), strict_weak_order lt ->
  forall l, isSortedUnique lt l = true <-> increasing lt l.
Proof. intros. apply SortedProofs.isSortedUnique_iff. auto. Qed.
Print Assumptions C15_isSortedUnique.
Example C15_case : isSorted Nat.ltb [1;1;3] = true /\ isSortedUnique Nat.ltb [1;1;3] = false /\ isSorted Nat.ltb [1;3;2] = false /\
  isSortedUnique Nat.ltb [1;2;3] = true.
Proof. repeat split. Qed.

(** C16: removeDuplicates on a sorted range leaves one representative of each class of equivalent values,
    strictly increasing, at the front; everything outside the range is unchanged and the slots after the
    representatives still hold (possibly moved-from) objects. *)
Theorem C16_removeDuplicates : forall V (lt : V -> V -> bool) triv, strict_weak_order lt ->
  forall (p s : buf V) l, sorted lt l ->
  exists b' u g, removeDuplicates triv lt (stored p l s) (length p) (length l) = Ok (b', length u) /\
    is_buffer triv b' (stored p u (g ++ s)) /\ length u + length g = length l /\ ~ In Raw g /\
    increasing lt u /\ incl u l /\ (forall x, In x l -> exists y, In y u /\ lt x y = false /\ lt y x = false).
Proof.
  intros V lt triv W p s l S. apply SortedProofs.sorted_strong in S.
  destruct (SortedProofs.removeDuplicates_ok W (stored_mem triv p l s) (eq_sym (map_length _ _)) eq_refl S)
    as ([b' k] & E & u & g & M & Ek & L & Lg & I & Inc & Cov). cbn [fst snd] in *. subst k.
  set (conc := fun c : MemProofs.lcell V => match c with MemProofs.LV v => Obj v | MemProofs.LN => Raw | MemProofs.LM => Hollow end).
  assert (AC : forall g, map (@abs V) (map conc g) = g) by (induction g0 as [|[] g0 IH]; simpl; congruence).
  exists b', u, (map conc g). split; [exact E|]. split; [|split; [rewrite map_length; auto|split]].
  - apply mem_is_buffer. rewrite !map_app, AC, abs_objs. exact M.
  - intros H. apply in_map_iff in H. destruct H as (c & Ec & Hc). rewrite Forall_forall in Lg. specialize (Lg c Hc).
    destruct c; try discriminate. apply Lg. auto.
  - split; [apply SortedProofs.increasing_strong; exact I|]. split; auto.
Qed.
Print Assumptions C16_removeDuplicates.

(** makeSortedUnique, given a makeSorted which sorts. *)
Theorem C16_makeSortedUnique : forall V (lt eqb : V -> V -> bool) triv, total_order lt eqb ->
  forall sort, (forall (p s : buf V) l, exists l', sort (stored p l s) (length p) (length l) = Ok (stored p l' s) /\
                  Permutation l l' /\ sorted lt l') ->
  forall (p s : buf V) l, exists b' u g, makeSortedUnique triv lt sort (stored p l s) (length p) (length l) = Ok (b', length u) /\
    is_buffer triv b' (stored p u (g ++ s)) /\ length u + length g = length l /\ ~ In Raw g /\
    is_set lt u (fun x => In x l).
Proof.
  intros V lt eqb triv T sort HS p s l. destruct (HS p s l) as (l' & E & P & S).
  destruct (@C16_removeDuplicates V lt triv (to_swo T) p s l' S) as (b' & u & g & E2 & B & L & G & I & Inc & Cov).
  exists b', u, g. unfold makeSortedUnique. rewrite E. cbn [bind]. rewrite (Permutation_length P). repeat split; auto.
  - intros H. eapply Permutation_in; [apply Permutation_sym; exact P|]. auto.
  - intros H. eapply Permutation_in in H; [|exact P]. destruct (Cov x H) as (y & Hy & L1 & L2).
    rewrite (to_total T L1 L2). auto.
Qed.
Print Assumptions C16_makeSortedUnique.
Example C16_case :
  removeDuplicates false Nat.ltb (stored [Obj 9] [2;2;4;4;4;9] [Raw]) 1 6 =
    Ok ([Obj 9; Obj 2; Obj 4; Obj 9; Obj 4; Obj 4; Hollow; Raw], 3).
Proof. reflexivity. Qed.

(** C17: insert and remove of one value (default callbacks; the caller provides the free slot). *)
Theorem C17_insert : forall V (lt eqb : V -> V -> bool) chk triv, total_order lt eqb ->
  forall (p s : buf V) l v, increasing lt l ->
  exists b' l' r, insert chk triv lt eqb (no_callbacks V (length p)) (stored p l (Raw :: s)) tt (length p) (length l) v = Ok (b', tt, r) /\
    is_set lt l' (fun x => x = v \/ In x l) /\ (r = true <-> ~ In v l) /\
    is_buffer triv b' (stored p l' (if r then s else Raw :: s)).
Proof.
  intros V lt eqb chk triv T p s l v I. apply SortedProofs.increasing_strong in I.
  pose proof (stored_mem triv p l (Raw :: s)) as M.
  set (key := fun x : V => x). set (lp := map (@abs V) p).
  pose (rx := fun (q t : list (MemProofs.lcell V)) (x : list (option V)) (_ : unit) => q = lp /\ t = (if SortedProofs2.present eqb key l v then MemProofs.LN :: map (@abs V) s else map (@abs V) s)).
  destruct (@SortedProofs3.insert_ok V V unit chk triv lt eqb key T (no_callbacks V (length p)) rx
     (stored p l (Raw :: s)) tt lp (map (@abs V) (Raw :: s)) l v (length p) (length l)) as (k & E & K).
  - unfold key. rewrite map_id. exact M.
  - exact I.
  - unfold lp. rewrite map_length. auto.
  - auto.
  - intros. apply BaseProofs.oks_ok. auto.
  - destruct (K (stored p l (Raw :: s), tt, length p)) as ([[b' []] r] & Ek & (p' & s' & M' & -> & ->) & Er).
    + exists lp, (if SortedProofs2.present eqb key l v then MemProofs.LN :: map (@abs V) s else map (@abs V) s).
      split; [unfold lp; rewrite map_length; auto|]. split; [|split; auto]. unfold key. rewrite map_id.
      destruct (SortedProofs2.present eqb (fun x : V => x) l v); exact M.
    + cbn [fst snd] in *. exists b', (SortedProofs2.pinsert lt eqb key v l), r. split; [|split; [split|split]].
      * change (key v) with v in E. rewrite E. exact Ek.
      * apply SortedProofs.increasing_strong. apply (SortedProofs2.pinsert_incr T (key := key)). exact I.
      * intros x. pose proof (SortedProofs2.pinsert_keys key T v l x) as PK. unfold key in PK. rewrite !map_id in PK. exact PK.
      * rewrite Er. pose proof (SortedProofs2.present_in key T l v) as PI. unfold key in PI at 2. rewrite map_id in PI.
        change (key v) with v. destruct (SortedProofs2.present eqb key l v); simpl; intuition discriminate.
      * apply mem_is_buffer. rewrite !map_app, abs_objs. change (key v) with v in Er. rewrite Er.
        unfold key in M' at 1. rewrite map_id in M'.
        destruct (SortedProofs2.present eqb key l v); exact M'.
Qed.
Print Assumptions C17_insert.

Theorem C17_remove : forall V (lt eqb : V -> V -> bool) chk triv, total_order lt eqb ->
  forall (p s : buf V) l v, increasing lt l ->
  exists b' l' r, remove chk triv lt eqb (no_callbacks V (length p)) (stored p l s) tt (length p) (length l) v = Ok (b', tt, r) /\
    is_set lt l' (fun x => In x l /\ x <> v) /\ (r = true <-> In v l) /\
    is_buffer triv b' (stored p l' (if r then Raw :: s else s)).
Proof.
  intros V lt eqb chk triv T p s l v I. apply SortedProofs.increasing_strong in I.
  pose proof (stored_mem triv p l s) as M.
  set (key := fun x : V => x). set (lp := map (@abs V) p).
  destruct (@SortedProofs3.remove_ok V V unit chk triv lt eqb key T (no_callbacks V (length p)) (fun _ _ _ _ => True)
     (stored p l s) tt lp (map (@abs V) s) l v (length p) (length l)) as ([[b' []] r] & E & M' & _ & Er & _); auto.
  - unfold key. rewrite map_id. exact M.
  - unfold lp. rewrite map_length. auto.
  - intros. apply BaseProofs.oks_ok. auto.
  - cbn [fst snd] in *. exists b', (SortedProofs2.pdiff eqb key l [v]), r. split; [exact E|split; [split|split]].
    + apply SortedProofs.increasing_strong. apply (@SortedProofs2.pdiff_incr V V lt eqb key). exact I.
    + intros x. rewrite (SortedProofs2.pdiff_in key T). unfold key. simpl. intuition.
    + rewrite Er. rewrite (SortedProofs2.present_in key T). unfold key. rewrite map_id. tauto.
    + apply mem_is_buffer. rewrite !map_app, abs_objs. unfold key in M' at 1. rewrite map_id in M'. rewrite Er.
      destruct (SortedProofs2.present eqb key l v); exact M'.
Qed.
Print Assumptions C17_remove.
Example C17_case :
  insert true false Nat.ltb Nat.eqb (no_callbacks nat 1) (stored [Obj 9] [2;4;9] (Raw :: [])) tt 1 3 5 =
    Ok (stored [Obj 9] [2;4;5;9] [], tt, true) /\
  remove true false Nat.ltb Nat.eqb (no_callbacks nat 1) (stored [Obj 9] [2;4;9] []) tt 1 3 4 =
    Ok (stored [Obj 9] [2;9] [Raw], tt, true).
Proof. split; reflexivity. Qed.

(** C18: insert and remove of a sorted range of values. *)
Theorem C18_insert : forall V (lt eqb : V -> V -> bool) chk triv, total_order lt eqb ->
  forall (p s : buf V) l vs n, increasing lt l -> increasing lt vs ->
  n = length (filter (fun v => negb (existsb (fun x => eqb x v) l)) vs) ->
  exists b' l', inserts chk triv lt eqb (no_callbacks V (length p)) (stored p l (repeat Raw n ++ s)) tt (length p) (length l) vs = Ok (b', tt, n) /\
    is_set lt l' (fun x => In x vs \/ In x l) /\ length l' = length l + n /\
    is_buffer triv b' (stored p l' s).
Proof.
  intros V lt eqb chk triv T p s l vs n I Iv En. apply SortedProofs.increasing_strong in I. apply SortedProofs.increasing_strong in Iv.
  pose proof (stored_mem triv p l (repeat Raw n ++ s)) as M.
  set (key := fun x : V => x). set (lp := map (@abs V) p).
  pose (rx := fun (q t : list (MemProofs.lcell V)) (x : list (option V)) (_ : unit) => q = lp /\ t = map (@abs V) s).
  destruct (@SortedProofs3.inserts_ok V V unit chk triv lt eqb key T (no_callbacks V (length p)) rx
     (stored p l (repeat Raw n ++ s)) tt lp (map (@abs V) (repeat Raw n ++ s)) l vs (length p) (length l)) as (k & E & K).
  - unfold key. rewrite map_id. exact M.
  - exact I.
  - exact Iv.
  - unfold lp. rewrite map_length. auto.
  - auto.
  - intros. apply BaseProofs.oks_ok. auto.
  - intros. apply BaseProofs.oks_ok. auto.
  - change (SortedProofs2.absent eqb key l vs) with (length (filter (fun v => negb (existsb (fun x => eqb x v) l)) vs)) in E, K.
    rewrite <- En in E, K.
    destruct (K (stored p l (repeat Raw n ++ s), tt, length p)) as ([[b' []] r] & Ek & (p' & s' & M' & -> & ->) & Er).
    + exists lp, (map (@abs V) s).
      split; [unfold lp; rewrite map_length; auto|]. split; [|split; auto]. unfold key. rewrite map_id.
      rewrite map_app, raws in M. exact M.
    + cbn [fst snd] in *. exists b', (fold_right (SortedProofs2.pinsert lt eqb key) l vs). subst r. split; [|split; [split|split]].
      * unfold key in E at 1. rewrite map_id in E. rewrite E. exact Ek.
      * apply SortedProofs.increasing_strong. apply (SortedProofs2.pinserts_incr T (key := key)). exact I.
      * intros x. pose proof (SortedProofs2.pinserts_keys key T vs l x) as PK. unfold key in PK. rewrite !map_id in PK. exact PK.
      * rewrite (SortedProofs2.pinserts_length T (key := key)) by auto. rewrite En. reflexivity.
      * apply mem_is_buffer. rewrite !map_app, abs_objs. unfold key in M' at 1. rewrite map_id in M'. exact M'.
Qed.
Print Assumptions C18_insert.

Theorem C18_remove : forall V (lt eqb : V -> V -> bool) chk triv, total_order lt eqb ->
  forall (p s : buf V) l vs, increasing lt l -> increasing lt vs ->
  exists b' l' n, removes chk triv lt eqb (no_callbacks V (length p)) (stored p l s) tt (length p) (length l) vs = Ok (b', tt, n) /\
    is_set lt l' (fun x => In x l /\ ~ In x vs) /\ length l = length l' + n /\
    is_buffer triv b' (stored p l' (repeat Raw n ++ s)).
Proof.
  intros V lt eqb chk triv T p s l vs I Iv. apply SortedProofs.increasing_strong in I. apply SortedProofs.increasing_strong in Iv.
  pose proof (stored_mem triv p l s) as M.
  set (key := fun x : V => x). set (lp := map (@abs V) p).
  destruct (@SortedProofs3.removes_ok V V unit chk triv lt eqb key T (no_callbacks V (length p)) (fun _ _ _ _ => True)
     (stored p l s) tt lp (map (@abs V) s) l vs (length p) (length l)) as ([[b' []] n] & E & M' & _ & Ln); auto.
  - unfold key. rewrite map_id. exact M.
  - unfold lp. rewrite map_length. auto.
  - intros. apply BaseProofs.oks_ok. auto.
  - cbn [fst snd] in *. exists b', (SortedProofs2.pdiff eqb key l vs), n. split; [exact E|split; [split|split]].
    + apply SortedProofs.increasing_strong. apply (@SortedProofs2.pdiff_incr V V lt eqb key). exact I.
    + intros x. rewrite (SortedProofs2.pdiff_in key T). tauto.
    + lia.
    + apply mem_is_buffer. rewrite !map_app, abs_objs, raws. unfold key in M' at 1. rewrite map_id in M'. exact M'.
Qed.
Print Assumptions C18_remove.
Example C18_case :
  inserts true false Nat.ltb Nat.eqb (no_callbacks nat 1) (stored [Obj 9] [2;4;9] [Raw;Raw;Raw]) tt 1 3 [1;4;5;11] =
    Ok (stored [Obj 9] [1;2;4;5;9;11] [], tt, 3) /\
  removes true false Nat.ltb Nat.eqb (no_callbacks nat 1) (stored [Obj 9] [2;4;9;10] []) tt 1 4 [1;2;3;9] =
    Ok (stored [Obj 9] [4;10] [Raw;Raw], tt, 2).
Proof. split; reflexivity. Qed.

(** C19: a default constructed SortedArray driven through any history of calls is the set the history
    describes; the returned counts are the changes of its cardinality and destruction is clean. *)
Theorem C19_set : forall V (lt eqb : V -> V -> bool) (dflt : V) chk triv, total_order lt eqb ->
  forall h, Forall (allowed lt) h ->
  exists a rs l, srun chk triv BMalloc lt eqb dflt h (new_s V BMalloc) = Ok (a, rs) /\
    is_set lt l (set_of h) /\ s_size a = length l /\
    (forall i, (i < length l)%nat -> exists v, nth_error l i = Some v /\ s_at chk a (Z.of_nat i) = Ok v) /\
    (forall i, (i < 0 \/ Z.of_nat (length l) <= i)%Z -> s_at true a i = Abort) /\
    (forall v, exists r, s_contains lt eqb a v = Ok r /\ (r = true <-> set_of h v)) /\
    s_dtor chk triv BMalloc a = Ok tt /\
    length rs = length h /\
    (forall h1 c h2, h = h1 ++ c :: h2 -> exists r n n', nth_error rs (length h1) = Some r /\
       cardinal (set_of h1) n /\ cardinal (set_of (h1 ++ [c])) n' /\ counts c n n' r).
Proof.
  intros V lt eqb dflt chk triv T h F.
  destruct (@SortedArrayProofs.srun_ok V chk triv lt eqb dflt T h (new_s V BMalloc) [] (SortedArrayProofs.new_s_ok triv lt) F)
    as ([a rs] & E & l & (H & Hs & I) & Hl & Ln & Hp). cbn [fst snd] in *.
  exists a, rs, l. split; [exact E|].
  assert (Hl' : forall x, In x l <-> set_of h x) by exact Hl.
  split; [split; [apply SortedProofs.increasing_strong; exact I|exact Hl']|]. split; [exact Hs|]. split; [|split; [|split; [|split; [|split]]]].
  - intros i Hi. destruct (nth_error l i) as [v|] eqn:N; [|apply nth_error_None in N; lia].
    exists v. split; auto. unfold s_at. rewrite Hs.
    rewrite BaseProofs.check_if_ok by (destruct (Z.ltb_spec (Z.of_nat i) 0), (Z.leb_spec (Z.of_nat (length l)) (Z.of_nat i)); auto; lia).
    unfold to_ix. destruct (Z.ltb_spec (Z.of_nat i) 0); [lia|]. cbn [bind]. rewrite Nat2Z.id.
    eapply BufferManipProofs.holds_rd; eauto.
  - intros i Hi. unfold s_at. rewrite Hs. unfold check_if, error_if.
    destruct (Z.ltb_spec i 0), (Z.leb_spec (Z.of_nat (length l)) i); cbn; auto; lia.
  - intros v. exists (SortedProofs2.present eqb (fun x => x) l v). split.
    + unfold s_contains. rewrite Hs.
      eapply (@SortedProofs3.contains_ok V V triv lt eqb (fun x => x) T) with (p := []); auto.
      rewrite map_id. apply BufferManipProofs.holds_mem. exact H.
    + rewrite (SortedProofs2.present_in (fun x => x) T), map_id. apply Hl'.
  - unfold s_dtor. rewrite Hs. destruct (@BufferManipProofs.free_ok V chk triv BMalloc (s_buf a) l H) as (b & Eb & _).
    rewrite Eb. reflexivity.
  - exact Ln.
  - intros h1 c h2 Eh. destruct (Hp h1 c h2 Eh) as (l1 & l2 & r & I1 & I2 & H1 & H2 & Hr & Hc).
    exists r, (length l1), (length l2). split; [exact Hr|]. split; [|split; [|exact Hc]].
    + exists l1. split; [apply (SortedArrayProofs.incr_nodup T); auto|]. split; auto.
    + exists l2. split; [apply (SortedArrayProofs.incr_nodup T); auto|]. split; auto.
      intros x. rewrite SortedArrayProofs.set_of_snoc, H2. apply SortedArrayProofs.set_after_ext. exact H1.
Qed.
Print Assumptions C19_set.
Example C19_case :
  ('(a, rs) <- srun true false BMalloc Nat.ltb Nat.eqb 0 [SInsert 5; SInsertRange [1;5;7]; SRemove 5; SInsert 7; SRemoveRange [0;7;9]; SReserve 10%Z]
                 (new_s nat BMalloc) ;; v <- s_at true a 0%Z ;; Ok (s_size a, v, rs)) = Ok (1, 1, [1;2;1;0;1;0]).
Proof. vm_compute. reflexivity. Qed.
