(** Proofs about PySets.v: the methods refine sets given by their increasing lists. *)
From Coq Require Import List Arith ZArith Lia Bool Sorting.Sorted.
From Verif Require Import Base BaseProofs Mem BufferManip SortedSpec SortedArray SortedArraySpec AoA AoASpec AoS AoSSpec
  PyBase PyArrays PyArraysSpec PyArraysProofs PySets PySetsSpec.
From Verif Require BufferManipProofs SortedProofs SortedArrayProofs SetsProofs2 AoSProofs AoAProofs4 AoALayout.
Import ListNotations.
Set Implicit Arguments.
Unset Strict Implicit.

(** * Increasing lists *)
Section Lists.
Variable V : Type.
Variable lt eqb : V -> V -> bool.
Hypothesis T : total_order lt eqb.
Notation incr l := (StronglySorted (fun x y => lt x y = true) l).

Lemma lt_irr x : lt x x = false. Proof. apply (SortedProofs.irr (to_swo T)). Qed.
Lemma lt_trans x y z : lt x y = true -> lt y z = true -> lt x z = true. Proof. apply (SortedProofs.trans (to_swo T)). Qed.
Lemma incr_unique l : forall l', incr l -> incr l' -> (forall x, In x l <-> In x l') -> l = l'.
Proof.
  induction l as [|x l IH]; intros [|y l'] I I' E.
  - reflexivity.
  - destruct (proj2 (E y) (or_introl eq_refl)).
  - destruct (proj1 (E x) (or_introl eq_refl)).
  - inversion I as [|? ? I1 F]; subst. inversion I' as [|? ? I1' F']; subst. rewrite Forall_forall in F, F'.
    assert (H : x = y).
    { destruct (proj1 (E x) (or_introl eq_refl)) as [->|Hx]; [reflexivity|]. destruct (proj2 (E y) (or_introl eq_refl)) as [->|Hy]; [reflexivity|].
      pose proof (lt_trans (F y Hy) (F' x Hx)) as C. rewrite lt_irr in C. discriminate. }
    subst y. f_equal. apply IH; auto. intros z. split; intros Hz.
    + destruct (proj1 (E z) (or_intror Hz)) as [->|H]; [|exact H]. pose proof (F z Hz) as C. rewrite lt_irr in C. discriminate.
    + destruct (proj2 (E z) (or_intror Hz)) as [->|H]; [|exact H]. pose proof (F' z Hz) as C. rewrite lt_irr in C. discriminate.
Qed.
Lemma with_elem_in v l x : In x (with_elem lt eqb v l) <-> x = v \/ In x l.
Proof.
  induction l as [|y l IH]; simpl; [intuition|]. destruct (lt v y); [simpl; intuition|]. destruct (eqb v y) eqn:E.
  - apply (to_eq T) in E. subst y. simpl. intuition.
  - simpl. rewrite IH. intuition.
Qed.
Lemma with_elem_incr v l : incr l -> incr (with_elem lt eqb v l).
Proof.
  induction 1 as [|y l I IH F]; simpl; [constructor; constructor|]. destruct (lt v y) eqn:E1.
  - constructor; [constructor; assumption|]. constructor; [exact E1|]. rewrite Forall_forall in *. intros z Hz. exact (lt_trans E1 (F z Hz)).
  - destruct (eqb v y) eqn:E2; [constructor; assumption|]. constructor; [exact IH|]. rewrite Forall_forall in *. intros z Hz.
    apply with_elem_in in Hz. destruct Hz as [->|Hz]; [|exact (F z Hz)]. destruct (lt y v) eqn:E3; [reflexivity|].
    pose proof (proj2 (to_eq T v y) (to_total T E1 E3)) as Q. congruence.
Qed.
Lemma union_in l vs x : In x (union lt eqb l vs) <-> In x vs \/ In x l.
Proof. unfold union. induction vs as [|v vs IH]; simpl; [intuition|]. rewrite with_elem_in, IH. intuition. Qed.
Lemma union_incr l vs : incr l -> incr (union lt eqb l vs).
Proof. intros I. unfold union. induction vs as [|v vs IH]; simpl; [exact I|]. apply with_elem_incr. exact IH. Qed.
Lemma minus_in l vs x : In x (minus eqb l vs) <-> In x l /\ ~ In x vs.
Proof.
  unfold minus. rewrite filter_In. apply and_iff_compat_l. rewrite negb_true_iff. destruct (existsb (eqb x) vs) eqn:E.
  - split; [discriminate|]. intros H. exfalso. apply H. apply existsb_exists in E. destruct E as (y & Hy & Q). apply (to_eq T) in Q. subst y. exact Hy.
  - split; [|reflexivity]. intros _ H. assert (Q : existsb (eqb x) vs = true) by (apply existsb_exists; exists x; split; [exact H|apply (to_eq T); reflexivity]). congruence.
Qed.
Lemma filter_incr f l : incr l -> incr (filter f l).
Proof.
  induction 1 as [|y l I IH F]; simpl; [constructor|]. destruct (f y); [|exact IH]. constructor; [exact IH|]. rewrite Forall_forall in *.
  intros z Hz. apply filter_In in Hz. apply F. tauto.
Qed.
Lemma minus_incr l vs : incr l -> incr (minus eqb l vs). Proof. apply filter_incr. Qed.
End Lists.

(** * SortedArray *)
Section Sorted.
Variable V : Type.
Variable dflt : V.
Variable chk : bool.
Variable lt eqb : V -> V -> bool.
Hypothesis T : total_order lt eqb.
Variable safe : nat -> nat -> bool.
Variable conv : nat -> nat -> V -> V.
Variable vtype : nat.
Variable host : Z.
Notation incr l := (StronglySorted (fun x y => lt x y = true) l).
Notation sa_ok := (@SortedArrayProofs.sa_ok V true lt).
Notation st a l := (mkPS (Some a) l).
Notation scall_of := (set_call lt eqb safe conv vtype host).

Lemma read_values_ok (b : buf V) (l : list V) : BufferManipProofs.holds true b l -> forall n i, i + n = length l -> read_values b i n = Ok (skipn i l).
Proof.
  intros H. induction n as [|n IH]; intros i E; simpl; [rewrite skipn_all2 by lia; reflexivity|].
  assert (J : exists v, nth_error l i = Some v). { destruct (nth_error l i) eqn:Q; [eauto|]. apply nth_error_None in Q. lia. }
  destruct J as (v & J). rewrite (@BufferManipProofs.holds_rd _ _ _ _ _ _ H J). cbn [bind]. rewrite IH by lia. cbn [bind]. f_equal. symmetry. apply skipn_nth. exact J.
Qed.
Lemma toNumPy_ok a l lev : sa_ok a l -> q_toNumPy (st a lev) = Ok (st a lev, PView false l).
Proof. intros (H & Hs & _). unfold q_toNumPy. cbn [ps_set]. rewrite Hs, (read_values_ok H) by reflexivity. reflexivity. Qed.
Definition sdone (c : scall V) (a a' : sarray V) r : Prop := sstep chk true BMalloc lt eqb dflt c a = Ok (a', r).
Lemma insert_set a l vs : sa_ok a l -> increasing lt vs ->
  exists a' r, sdone (SInsertRange vs) a a' r /\ sa_ok a' (union lt eqb l vs) /\ Z.of_nat r = gain l (union lt eqb l vs).
Proof.
  intros H I. destruct (@SortedArrayProofs.sstep_ok V chk true lt eqb dflt T (SInsertRange vs) a l H I) as ([a' r] & E & l' & H' & Q & C).
  exists a', r. cbn [fst snd] in *. split; [exact E|]. cbn in Q, C.
  assert (U : l' = union lt eqb l vs).
  { apply (incr_unique T); [apply H'|apply (union_incr T); apply H|]. intros x. rewrite Q, (union_in T). tauto. }
  subst l'. split; [exact H'|]. unfold gain. rewrite C. lia.
Qed.
Lemma remove_set a l vs : sa_ok a l -> increasing lt vs ->
  exists a' r, sdone (SRemoveRange vs) a a' r /\ sa_ok a' (minus eqb l vs) /\ Z.of_nat r = gain (minus eqb l vs) l.
Proof.
  intros H I. destruct (@SortedArrayProofs.sstep_ok V chk true lt eqb dflt T (SRemoveRange vs) a l H I) as ([a' r] & E & l' & H' & Q & C).
  exists a', r. cbn [fst snd] in *. split; [exact E|]. cbn in Q, C.
  assert (U : l' = minus eqb l vs).
  { apply (incr_unique T); [apply H'|apply minus_incr; apply H|]. intros x. rewrite Q, (minus_in T). tauto. }
  subst l'. split; [exact H'|]. unfold gain. rewrite C. lia.
Qed.

Definition qvia (a a' : sarray V) : Prop := exists h rs, Forall (allowed lt) h /\ srun chk true BMalloc lt eqb dflt h a = Ok (a', rs).
Lemma qvia_refl a : qvia a a. Proof. exists [], []. split; [constructor|reflexivity]. Qed.
Lemma qvia_one c a a' r : allowed lt c -> sdone c a a' r -> qvia a a'.
Proof. intros A E. exists [c], [r]. split; [constructor; [exact A|constructor]|]. unfold sdone in E. simpl. rewrite E. reflexivity. Qed.

Lemma q_step_ok c a l lev : q_sorted lt safe conv vtype c -> sa_ok a l ->
  exists a', q_step chk lt eqb safe conv vtype host c (st a lev) = Ok (st a' (snd (fst (scall_of c l lev))), snd (scall_of c l lev)) /\
    sa_ok a' (fst (fst (scall_of c l lev))) /\ qvia a a'.
Proof.
  intros S H.
  assert (Same : forall r, r = snd (scall_of c l lev) -> l = fst (fst (scall_of c l lev)) -> lev = snd (fst (scall_of c l lev)) ->
     exists a', Ok (st a lev, r) = Ok (st a' (snd (fst (scall_of c l lev))), snd (scall_of c l lev)) /\ sa_ok a' (fst (fst (scall_of c l lev))) /\ qvia a a').
  { intros r <- <- <-. exists a. auto using qvia_refl. }
  destruct c as [x|x| | |n space]; cbn [q_step].
  - unfold q_change. destruct x as [obj|]; cbn [q_arg].
    + cbn [bind ps_set ps_level]. destruct (lev <? RESIZEABLE)%Z eqn:E; [apply Same; cbn [set_call]; rewrite E; reflexivity|].
      destruct (parseNumPyArray safe conv vtype obj) as [vs|e] eqn:O; [|apply Same; cbn [set_call q_values]; rewrite E, O; reflexivity].
      destruct (insert_set H (S vs O)) as (a' & r & D & H' & G). pose proof (qvia_one (c := SInsertRange vs) (S vs O) D) as W. unfold sdone in D. cbn [sstep] in D. rewrite D. cbn [bind].
      exists a'. cbn [set_call q_values]. rewrite E, O. cbn [fst snd]. rewrite G. auto.
    + rewrite (toNumPy_ok lev H). cbn [bind ps_set ps_level]. destruct (lev <? RESIZEABLE)%Z eqn:E; apply Same; cbn [set_call]; rewrite E; reflexivity.
  - unfold q_change. destruct x as [obj|]; cbn [q_arg].
    + cbn [bind ps_set ps_level]. destruct (lev <? RESIZEABLE)%Z eqn:E; [apply Same; cbn [set_call]; rewrite E; reflexivity|].
      destruct (parseNumPyArray safe conv vtype obj) as [vs|e] eqn:O; [|apply Same; cbn [set_call q_values]; rewrite E, O; reflexivity].
      destruct (remove_set H (S vs O)) as (a' & r & D & H' & G). pose proof (qvia_one (c := SRemoveRange vs) (S vs O) D) as W. unfold sdone in D. cbn [sstep] in D. rewrite D. cbn [bind].
      exists a'. cbn [set_call q_values]. rewrite E, O. cbn [fst snd]. rewrite G. auto.
    + rewrite (toNumPy_ok lev H). cbn [bind ps_set ps_level]. destruct (lev <? RESIZEABLE)%Z eqn:E; apply Same; cbn [set_call]; rewrite E; reflexivity.
  - rewrite (toNumPy_ok lev H). apply Same; reflexivity.
  - apply Same; reflexivity.
  - cbn [ps_set]. destruct (in_int n && in_int space) eqn:E; cbn [negb]; [|apply Same; cbn [set_call]; rewrite E; reflexivity].
    destruct (space =? host)%Z eqn:E2; cbn [negb]; [|apply Same; cbn [set_call]; rewrite E, E2; reflexivity].
    exists a. cbn [set_call]. rewrite E, E2. cbn [fst snd negb]. auto using qvia_refl.
Qed.
Lemma srun_app h1 : forall h2 (a a1 a2 : sarray V) r1 r2, srun chk true BMalloc lt eqb dflt h1 a = Ok (a1, r1) ->
  srun chk true BMalloc lt eqb dflt h2 a1 = Ok (a2, r2) -> srun chk true BMalloc lt eqb dflt (h1 ++ h2) a = Ok (a2, r1 ++ r2).
Proof.
  induction h1 as [|c h IH]; intros h2 a a1 a2 r1 r2 H1 H2; simpl in *; [injection H1 as <- <-; exact H2|].
  destruct (sstep chk true BMalloc lt eqb dflt c a) as [[a0 r0]| |]; try discriminate. cbn [bind] in *.
  destruct (srun chk true BMalloc lt eqb dflt h a0) as [[a3 r3]| |] eqn:E; try discriminate. cbn [bind] in *. injection H1 as <- <-.
  rewrite (IH _ _ _ _ _ _ E H2). reflexivity.
Qed.
Lemma qvia_trans a b c : qvia a b -> qvia b c -> qvia a c.
Proof.
  intros (h1 & r1 & A1 & E1) (h2 & r2 & A2 & E2). exists (h1 ++ h2), (r1 ++ r2). split; [apply Forall_app; auto|exact (srun_app E1 E2)].
Qed.
Notation scalls_of := (set_calls lt eqb safe conv vtype host).
Lemma q_run_ok h : forall a l lev, Forall (q_sorted lt safe conv vtype) h -> sa_ok a l ->
  exists a', q_run chk lt eqb safe conv vtype host h (st a lev) = Ok (st a' (snd (fst (scalls_of h l lev))), snd (scalls_of h l lev)) /\
    sa_ok a' (fst (fst (scalls_of h l lev))) /\ qvia a a'.
Proof.
  induction h as [|c h IH]; intros a l lev F H; [exists a; cbn; auto using qvia_refl|].
  destruct (q_step_ok lev (Forall_inv F) H) as (a1 & E1 & H1 & W1).
  destruct (IH a1 _ (snd (fst (scall_of c l lev))) (Forall_inv_tail F) H1) as (a2 & E2 & H2 & W2).
  exists a2. cbn [q_run]. rewrite E1. cbn [bind]. rewrite E2. cbn [bind set_calls].
  destruct (scall_of c l lev) as [[l1 v1] r1]. cbn [fst snd] in *. destruct (scalls_of h l1 v1) as [[l2 v2] r2]. cbn [fst snd] in *.
  split; [reflexivity|]. split; [exact H2|]. exact (qvia_trans W1 W2).
Qed.
End Sorted.

(** * ArrayOfSets *)
Section Sets.
Variable V : Type.
Variable dflt : V.
Variable chk : bool.
Variable lt eqb : V -> V -> bool.
Hypothesis T : total_order lt eqb.
Variable safe : nat -> nat -> bool.
Variable conv : nat -> nat -> V -> V.
Variable vtype : nat.
Variable imax : Z.
Notation incr l := (StronglySorted (fun x y => lt x y = true) l).
Notation st a l := (mkPA (Some a) l).
Notation rep := (@SetsProofs2.rep V V unit (fun v : V => v) (fun _ => tt) true true false lt).
Notation arep := (@AoAProofs4.arep V unit true true (fun _ : V => tt)).
Notation scall_of := (sets_call lt eqb safe conv vtype).
Notation run_step := (tstep chk true true false BMalloc lt eqb dflt).

Definition members (M : list (list V)) : list (V -> Prop) := map (fun l x => In x l) M.
Definition srep (a : aoa V unit) (M : list (list V)) : Prop := rep a (members M) /\ Forall (fun l => incr l) M.

Lemma srep_arep a M : srep a M -> exists K, arep a M K.
Proof.
  intros [(L & H & F) I]. exists (map (@AoALayout.wid V) L). exists L. split; [exact H|]. split; [|reflexivity]. clear H.
  revert M I F. induction L as [|[r k] L IH]; intros M I F; destruct M as [|l M]; inversion F as [|? ? ? ? [Ir Er] F']; subst; [reflexivity|].
  inversion I as [|? ? Il IM]; subst. simpl in *. f_equal; [apply (incr_unique T); auto|apply IH; auto].
Qed.
Lemma members_len M : length (members M) = length M. Proof. apply map_length. Qed.
Lemma f2_refl (M : list (V -> Prop)) : Forall2 (fun S S' => forall x, S x <-> S' x) M M.
Proof. induction M; constructor; auto. intros x. tauto. Qed.
Lemma members_put M k l : members (put_at M k l) = put_at (members M) k (fun x => In x l).
Proof. unfold members, put_at. rewrite map_app. cbn [map]. rewrite firstn_map, skipn_map. reflexivity. Qed.
Lemma forall_put (P : list V -> Prop) M k l : Forall P M -> P l -> Forall P (put_at M k l).
Proof.
  intros F H. unfold put_at. pose proof (firstn_skipn k M) as E1. pose proof (firstn_skipn (k + 1) M) as E2.
  apply Forall_app. split; [rewrite <- E1 in F; apply Forall_app in F; tauto|]. constructor; [exact H|]. rewrite <- E2 in F. apply Forall_app in F. tauto.
Qed.
Lemma member_at M k : k < length M -> nth_error (members M) k = Some (fun x => In x (nth k M [])).
Proof. intros H. unfold members. rewrite nth_error_map, (nth_row H). reflexivity. Qed.
Lemma step_done c a M M' : rep a (members M) -> tallowed lt c -> set_step lt c (members M) = Some M' ->
  exists a' r, run_step c a = Ok (a', r) /\ rep a' M' /\ treturns c (members M) M' r.
Proof.
  intros R A E. pose proof (@AoSProofs.tstep_ok V unit (fun _ => tt) chk true true lt eqb T dflt c a (members M) R A) as S. rewrite E in S.
  destruct S as [([a' r] & D & R' & Q)|[C _]]; [|discriminate]. exists a', r. auto.
Qed.
Lemma incr_nodup l : incr l -> NoDup l.
Proof. intros I. apply (@SetsProofs2.pincr_nodup V V (fun v => v) lt eqb T). exact I. Qed.
Lemma card_in l : incr l -> cardinal (fun x => In x l) (length l).
Proof. intros I. exists l. split; [apply incr_nodup; exact I|]. split; [intros x; tauto|reflexivity]. Qed.
Lemma row_incr M k : Forall (fun l => incr l) M -> k < length M -> incr (nth k M []).
Proof. intros F H. rewrite Forall_forall in F. apply F. apply nth_In. exact H. Qed.

Lemma insert_into a M k vs : srep a M -> k < length M -> increasing lt vs ->
  exists a' r, run_step (TInserts k vs) a = Ok (a', r) /\ srep a' (put_at M k (union lt eqb (nth k M []) vs)) /\
    Z.of_nat r = gain (nth k M []) (union lt eqb (nth k M []) vs).
Proof.
  intros [R I] H A. set (l := nth k M []). pose proof (row_incr I H) as Il. fold l in Il. pose proof (union_incr T vs Il) as Iu.
  assert (E : set_step lt (TInserts k vs) (members M) = Some (put_at (members M) k (fun x => In x vs \/ In x l))).
  { cbn [set_step]. unfold on_elem. rewrite (member_at H). reflexivity. }
  destruct (step_done (c := TInserts k vs) R A E) as (a' & r & D & R' & Q). exists a', r. split; [exact D|]. split; [split|].
  - rewrite members_put. eapply AoSProofs.rep_cast; [exact R'|]. apply AoSProofs.put_ext. intros x. rewrite (union_in T). tauto.
  - apply forall_put; assumption.
  - cbn [treturns] in Q. specialize (Q (fun x => In x l) (fun x => In x vs \/ In x l) (length l) (length (union lt eqb l vs)) (member_at H)).
    rewrite (AoSProofs.nth_put _ (member_at H)) in Q. specialize (Q eq_refl (card_in Il)).
    assert (C : cardinal (fun x => In x vs \/ In x l) (length (union lt eqb l vs))).
    { exists (union lt eqb l vs). split; [apply incr_nodup; exact Iu|]. split; [intros x; apply (union_in T)|reflexivity]. }
    specialize (Q C). unfold gain. lia.
Qed.
Lemma remove_from a M k vs : srep a M -> k < length M -> increasing lt vs ->
  exists a' r, run_step (TRemoves k vs) a = Ok (a', r) /\ srep a' (put_at M k (minus eqb (nth k M []) vs)) /\
    Z.of_nat r = gain (minus eqb (nth k M []) vs) (nth k M []).
Proof.
  intros [R I] H A. set (l := nth k M []). pose proof (row_incr I H) as Il. fold l in Il. pose proof (minus_incr eqb vs Il) as Iu.
  assert (E : set_step lt (TRemoves k vs) (members M) = Some (put_at (members M) k (fun x => In x l /\ ~ In x vs))).
  { cbn [set_step]. unfold on_elem. rewrite (member_at H). reflexivity. }
  destruct (step_done (c := TRemoves k vs) R A E) as (a' & r & D & R' & Q). exists a', r. split; [exact D|]. split; [split|].
  - rewrite members_put. eapply AoSProofs.rep_cast; [exact R'|]. apply AoSProofs.put_ext. intros x. rewrite (minus_in T). tauto.
  - apply forall_put; assumption.
  - cbn [treturns] in Q. specialize (Q (fun x => In x l) (fun x => In x l /\ ~ In x vs) (length l) (length (minus eqb l vs)) (member_at H)).
    rewrite (AoSProofs.nth_put _ (member_at H)) in Q. specialize (Q eq_refl (card_in Il)).
    assert (C : cardinal (fun x => In x l /\ ~ In x vs) (length (minus eqb l vs))).
    { exists (minus eqb l vs). split; [apply incr_nodup; exact Iu|]. split; [intros x; apply (minus_in T)|reflexivity]. }
    specialize (Q C). unfold gain. lia.
Qed.
Lemma insert_empty a M k cap : srep a M -> k <= length M ->
  exists a' r, run_step (TInsertSet k cap) a = Ok (a', r) /\ srep a' (firstn k M ++ [] :: skipn k M).
Proof.
  intros [R I] H. assert (E : set_step lt (TInsertSet k cap) (members M) = Some (insert_at (members M) k none)).
  { cbn [set_step]. rewrite members_len. replace (k <=? length M) with true by (symmetry; apply Nat.leb_le; exact H). reflexivity. }
  destruct (step_done (c := TInsertSet k cap) R Logic.I E) as (a' & r & D & R' & _). exists a', r. split; [exact D|]. split.
  - eapply AoSProofs.rep_cast; [exact R'|]. unfold insert_at, members. rewrite map_app. cbn [map]. rewrite firstn_map, skipn_map.
    apply Forall2_app; [apply f2_refl|]. constructor; [|apply f2_refl]. intros x. unfold none. cbn. tauto.
  - pose proof (firstn_skipn k M) as E1. rewrite <- E1 in I. apply Forall_app in I. destruct I. apply Forall_app. split; [assumption|]. constructor; [constructor|assumption].
Qed.
Lemma erase_set a M k : srep a M -> k < length M ->
  exists a' r, run_step (TEraseSet k) a = Ok (a', r) /\ srep a' (firstn k M ++ skipn (k + 1) M).
Proof.
  intros [R I] H. assert (E : set_step lt (TEraseSet k) (members M) = Some (remove_at (members M) k)).
  { cbn [set_step]. rewrite members_len. replace (k <? length M) with true by (symmetry; apply Nat.ltb_lt; exact H). reflexivity. }
  destruct (step_done (c := TEraseSet k) R Logic.I E) as (a' & r & D & R' & _). exists a', r. split; [exact D|]. split.
  - unfold remove_at, members in *. rewrite map_app, <- firstn_map, <- skipn_map. exact R'.
  - pose proof (firstn_skipn k M) as E1. pose proof (firstn_skipn (k + 1) M) as E2. apply Forall_app.
    split; [rewrite <- E1 in I|rewrite <- E2 in I]; apply Forall_app in I; tauto.
Qed.

Lemma set_view_ok a M K i : arep a M K -> i < length M -> set_view chk a i = Ok (false, nth i M []).
Proof.
  intros R H. pose proof (nth_row H) as N. unfold set_view. rewrite (check_ok chk R H). cbn [bind]. rewrite (AoAProofs4.rep_size chk R N). cbn [bind].
  rewrite (read_row_ok chk R N) by reflexivity. reflexivity.
Qed.
Lemma t_getitem_ok a M K lev i : arep a M K ->
  t_getitem chk (st a lev) i = Ok (st a lev, match plain (length M) i with Some k => PView false (nth k M []) | None => PRaise EIndex end).
Proof.
  intros R. unfold t_getitem. cbn [pa_array pa_level]. rewrite (AoAProofs4.rep_num R). destruct (plain (length M) i) as [k|] eqn:P.
  - destruct (plain_some P) as (H & -> & L). rewrite (in_range H). rewrite (set_view_ok R L). reflexivity.
  - rewrite (plain_none P). reflexivity.
Qed.
Lemma t_iter_ok a M K lev : arep a M K -> forall fuel k, k <= length M -> length M - k < fuel ->
  t_iter chk fuel (st a lev) (Z.of_nat k) = Ok (inl (map (pair false) (skipn k M))).
Proof.
  intros R. induction fuel as [|f IH]; intros k Hk Hf; [lia|]. cbn [t_iter]. rewrite (t_getitem_ok lev (Z.of_nat k) R). cbn [bind].
  destruct (Nat.eq_dec k (length M)) as [->|N].
  - unfold plain. replace (Z.of_nat (length M) <? Z.of_nat (length M))%Z with false by (symmetry; apply Z.ltb_ge; lia). rewrite andb_false_r.
    rewrite skipn_all. reflexivity.
  - unfold plain. replace ((0 <=? Z.of_nat k) && (Z.of_nat k <? Z.of_nat (length M)))%Z with true by (symmetry; apply andb_true_intro; split; [apply Z.leb_le|apply Z.ltb_lt]; lia).
    rewrite Nat2Z.id. replace (Z.of_nat k + 1)%Z with (Z.of_nat (k + 1)) by lia. rewrite IH by lia. cbn [bind].
    assert (E : nth_error M k = Some (nth k M [])) by (apply nth_row; lia). rewrite (skipn_nth E). reflexivity.
Qed.
Definition tvia (a a' : aoa V unit) : Prop := exists h, Forall (tallowed lt) h /\ trun chk true true false BMalloc lt eqb dflt h a = Ok a'.
Lemma tvia_refl a : tvia a a. Proof. exists []. split; [constructor|reflexivity]. Qed.
Lemma tvia_one c a a' r : tallowed lt c -> run_step c a = Ok (a', r) -> tvia a a'.
Proof. intros A E. exists [c]. split; [constructor; [exact A|constructor]|]. simpl. rewrite E. reflexivity. Qed.
Lemma tvia_trans a b c : tvia a b -> tvia b c -> tvia a c.
Proof.
  intros (h1 & A1 & E1) (h2 & A2 & E2). exists (h1 ++ h2). split; [apply Forall_app; auto|]. clear A1 A2. revert a E1.
  induction h1 as [|x h IH]; intros a E1; simpl in *; [injection E1 as <-; exact E2|].
  destruct (run_step x a) as [[a0 r0]| |]; try discriminate. cbn [bind] in *. exact (IH _ E1).
Qed.

Lemma t_step_ok c a M lev : t_sorted lt safe conv vtype imax c -> srep a M ->
  exists a', t_step chk lt eqb safe conv vtype imax c (st a lev) = Ok (st a' (snd (fst (scall_of c M lev))), snd (scall_of c M lev)) /\
    srep a' (fst (fst (scall_of c M lev))) /\ tvia a a'.
Proof.
  intros S H. destruct (srep_arep H) as (K & R). pose proof (AoAProofs4.rep_num R) as N.
  assert (Same : forall r, r = snd (scall_of c M lev) -> M = fst (fst (scall_of c M lev)) -> lev = snd (fst (scall_of c M lev)) ->
     exists a', Ok (st a lev, r) = Ok (st a' (snd (fst (scall_of c M lev))), snd (scall_of c M lev)) /\ srep a' (fst (fst (scall_of c M lev))) /\ tvia a a').
  { intros r <- <- <-. exists a. auto using tvia_refl. }
  destruct c as [|i| |i|i|i j v|i x|i cap|i x| |l]; cbn [t_step].
  - unfold py_len. cbn [pa_array]. apply Same; cbn; congruence.
  - pose proof (seq_ok lev i R) as Q. destruct (seq_index (st a lev) i) as [i'|e].
    + destruct Q as [_ Q]. rewrite (t_getitem_ok lev i' R). apply Same; cbn [sets_call]; rewrite Q; destruct (plain (length M) i'); reflexivity.
    + destruct Q as (-> & _ & Q). apply Same; cbn [sets_call]; rewrite Q; reflexivity.
  - cbn [pa_array]. rewrite N. change 0%Z with (Z.of_nat 0). rewrite (@t_iter_ok a M K lev R (length M + 1) 0) by lia. cbn [bind]. apply Same; reflexivity.
  - pose proof (seq_ok lev i R) as Q. destruct (seq_index (st a lev) i) as [i'|e].
    + destruct Q as [Q1 Q]. unfold t_delitem. cbn [pa_array pa_level deref bind].
      destruct (lev <? RESIZEABLE)%Z eqn:E; [apply Same; cbn [sets_call]; rewrite Q1, E; reflexivity|]. rewrite N.
      destruct (plain (length M) i') as [k|] eqn:P.
      * destruct (plain_some P) as (Hk & Ek & L). rewrite (in_range Hk). rewrite <- Ek.
        destruct (erase_set H L) as (a' & r & D & H'). pose proof (tvia_one (c := TEraseSet k) Logic.I D) as W.
        cbn [tstep] in D. unfold void in D. destruct (eraseSet chk true true false BMalloc a k) as [a1| |]; try discriminate. injection D as -> _.
        cbn [bind with_array pa_level]. exists a'. cbn [sets_call]. rewrite Q1, E, Q. cbn [negb fst snd]. auto.
      * rewrite (plain_none P). apply Same; cbn [sets_call]; rewrite Q1, E, Q; reflexivity.
    + destruct Q as (-> & Q1 & Q). apply Same; cbn [sets_call]; rewrite Q1; reflexivity.
  - pose proof (seq_ok lev i R) as Q. destruct (seq_index (st a lev) i) as [i'|e].
    + destruct Q as [Q1 Q]. unfold t_delitem. cbn [pa_array pa_level deref bind].
      destruct (lev <? RESIZEABLE)%Z eqn:E; apply Same; cbn [sets_call]; rewrite Q1, E; reflexivity.
    + destruct Q as (-> & Q1 & Q). apply Same; cbn [sets_call]; rewrite Q1; reflexivity.
  - unfold t_setElem. pose proof (seq_ok lev i R) as Q. destruct (seq_index (st a lev) i) as [i'|e].
    + destruct Q as [_ Q]. rewrite (t_getitem_ok lev i' R). cbn [bind]. destruct (plain (length M) i'); apply Same; cbn [sets_call]; rewrite Q; reflexivity.
    + destruct Q as (-> & _ & Q). apply Same; cbn [sets_call]; rewrite Q; reflexivity.
  - assert (Go : forall obj, no_view M x = false -> parseNumPyArray safe conv vtype obj = t_values safe conv vtype x ->
       exists a', t_insertInto chk lt eqb safe conv vtype (st a lev) i obj = Ok (st a' (snd (fst (scall_of (STInsertInto i x) M lev))), snd (scall_of (STInsertInto i x) M lev)) /\
         srep a' (fst (fst (scall_of (STInsertInto i x) M lev))) /\ tvia a a').
    { intros obj Nv O. unfold t_insertInto. cbn [pa_array pa_level deref bind].
      destruct (lev <? RESIZEABLE)%Z eqn:E; [apply Same; cbn [sets_call]; rewrite Nv, E; reflexivity|].
      destruct (in_ll i) eqn:I; cbn [negb]; [|apply Same; cbn [sets_call]; rewrite Nv, E, I; reflexivity]. rewrite N.
      destruct (plain (length M) i) as [k|] eqn:P.
      - destruct (plain_some P) as (Hk & Ek & L). rewrite (in_range Hk). rewrite O. destruct (t_values safe conv vtype x) as [vs|e] eqn:Q;
          [|apply Same; cbn [sets_call]; rewrite Nv, E, I, P, Q; reflexivity].
        destruct (insert_into H L (S vs Q)) as (a' & r & D & H' & G). pose proof (tvia_one (c := TInserts k vs) (S vs Q) D) as W. cbn [tstep] in D.
        rewrite <- Ek, D. cbn [bind with_array pa_level]. exists a'. cbn [sets_call]. rewrite Nv, E, I, P, Q. cbn [negb fst snd]. rewrite G. auto.
      - rewrite (plain_none P). apply Same; cbn [sets_call]; rewrite Nv, E, I, P; reflexivity. }
    destruct x as [obj|k]; cbn [t_arg].
    + apply Go; reflexivity.
    + pose proof (seq_ok lev k R) as Q. destruct (seq_index (st a lev) k) as [k'|e].
      * destruct Q as [_ Q]. rewrite (t_getitem_ok lev k' R). cbn [bind]. destruct (plain (length M) k') as [p|].
        -- apply Go; [cbn [no_view]; rewrite Q; reflexivity|reflexivity].
        -- apply Same; cbn [sets_call no_view]; rewrite Q; reflexivity.
      * destruct Q as (-> & _ & Q). apply Same; cbn [sets_call no_view]; rewrite Q; reflexivity.
  - unfold t_insert. cbn [pa_array pa_level deref bind].
    destruct (lev <? RESIZEABLE)%Z eqn:E; [apply Same; cbn [sets_call]; rewrite E; reflexivity|].
    destruct (in_ll i && in_ll cap) eqn:I; cbn [negb]; [|apply Same; cbn [sets_call]; rewrite E, I; reflexivity]. rewrite N.
    destruct (plain (length M + 1) i) as [k|] eqn:P.
    + destruct (plain_some P) as (Hk & Ek & L). replace (i <? 0)%Z with false by (symmetry; apply Z.ltb_ge; lia).
      replace (Z.of_nat (length M) <? i)%Z with false by (symmetry; apply Z.ltb_ge; lia). cbn [orb].
      destruct (cap <? 0)%Z eqn:C; [apply Same; cbn [sets_call]; rewrite E, I, P, C; reflexivity|].
      cbn [t_sorted] in S. replace (imax <? cap)%Z with false by (symmetry; apply Z.ltb_ge; exact S).
      assert (Lk : k <= length M) by lia.
      destruct (insert_empty (Z.to_nat cap) H Lk) as (a' & r & D & H'). pose proof (tvia_one (c := TInsertSet k (Z.to_nat cap)) Logic.I D) as W.
      cbn [tstep] in D. unfold void in D. rewrite <- Ek. destruct (insertSet chk true true false BMalloc a k (Z.to_nat cap)) as [a1| |]; try discriminate. injection D as -> _.
      cbn [bind with_array pa_level]. exists a'. cbn [sets_call]. rewrite E, I, P, C. cbn [negb fst snd]. auto.
    + assert (B : ((i <? 0) || (Z.of_nat (length M) <? i))%Z = true).
      { pose proof (plain_none P) as B. apply orb_true_iff in B. apply orb_true_iff. destruct B as [B|B]; [left; exact B|right].
        apply Z.leb_le in B. apply Z.ltb_lt. lia. }
      rewrite B. apply Same; cbn [sets_call]; rewrite E, I, P; reflexivity.
  - assert (Go : forall obj, no_view M x = false -> parseNumPyArray safe conv vtype obj = t_values safe conv vtype x ->
       exists a', t_eraseFrom chk lt eqb safe conv vtype (st a lev) i obj = Ok (st a' (snd (fst (scall_of (STEraseFrom i x) M lev))), snd (scall_of (STEraseFrom i x) M lev)) /\
         srep a' (fst (fst (scall_of (STEraseFrom i x) M lev))) /\ tvia a a').
    { intros obj Nv O. unfold t_eraseFrom. cbn [pa_array pa_level deref bind].
      destruct (lev <? RESIZEABLE)%Z eqn:E; [apply Same; cbn [sets_call]; rewrite Nv, E; reflexivity|].
      destruct (in_ll i) eqn:I; cbn [negb]; [|apply Same; cbn [sets_call]; rewrite Nv, E, I; reflexivity]. rewrite N.
      destruct (plain (length M) i) as [k|] eqn:P.
      - destruct (plain_some P) as (Hk & Ek & L). rewrite (in_range Hk). rewrite O. cbv zeta.
        set (vs := match t_values safe conv vtype x with inl vs => vs | inr _ => [] end).
        assert (A : increasing lt vs).
        { subst vs. destruct (t_values safe conv vtype x) as [vs|e] eqn:Q; [exact (S vs Q)|]. intros [|p] q y z _ Y; discriminate Y. }
        destruct (remove_from H L A) as (a' & r & D & H' & G). pose proof (tvia_one (c := TRemoves k vs) A D) as W. cbn [tstep] in D.
        rewrite <- Ek, D. cbn [bind with_array pa_level]. exists a'. cbn [sets_call]. rewrite Nv, E, I, P. cbn [negb]. subst vs.
        destruct (t_values safe conv vtype x) as [vs|e]; cbn [fst snd]; [rewrite G; auto|]. split; [reflexivity|]. split; [|exact W].
        assert (Z1 : minus eqb (nth k M []) [] = nth k M []) by (unfold minus; clear; induction (nth k M []) as [|y l IH]; simpl in *; [reflexivity|rewrite IH; reflexivity]).
        rewrite Z1 in H'. assert (Z2 : put_at M k (nth k M []) = M).
        { unfold put_at. pose proof (skipn_nth (nth_row L)) as Y. rewrite <- Y. apply firstn_skipn. }
        rewrite Z2 in H'. exact H'.
      - rewrite (plain_none P). apply Same; cbn [sets_call]; rewrite Nv, E, I, P; reflexivity. }
    destruct x as [obj|k]; cbn [t_arg].
    + apply Go; reflexivity.
    + pose proof (seq_ok lev k R) as Q. destruct (seq_index (st a lev) k) as [k'|e].
      * destruct Q as [_ Q]. rewrite (t_getitem_ok lev k' R). cbn [bind]. destruct (plain (length M) k') as [p|].
        -- apply Go; [cbn [no_view]; rewrite Q; reflexivity|reflexivity].
        -- apply Same; cbn [sets_call no_view]; rewrite Q; reflexivity.
      * destruct Q as (-> & _ & Q). apply Same; cbn [sets_call no_view]; rewrite Q; reflexivity.
  - apply Same; reflexivity.
  - cbn [pa_array]. destruct (in_int l) eqn:E.
    + exists a. cbn [sets_call]. rewrite E. auto using tvia_refl.
    + apply Same; cbn [sets_call]; rewrite E; reflexivity.
Qed.
Notation scalls_of := (sets_calls lt eqb safe conv vtype).
Lemma t_run_ok h : forall a M lev, Forall (t_sorted lt safe conv vtype imax) h -> srep a M ->
  exists a', t_run chk lt eqb safe conv vtype imax h (st a lev) = Ok (st a' (snd (fst (scalls_of h M lev))), snd (scalls_of h M lev)) /\
    srep a' (fst (fst (scalls_of h M lev))) /\ tvia a a'.
Proof.
  induction h as [|c h IH]; intros a M lev F H; [exists a; cbn; auto using tvia_refl|].
  destruct (t_step_ok lev (Forall_inv F) H) as (a1 & E1 & H1 & W1).
  destruct (IH a1 _ (snd (fst (scall_of c M lev))) (Forall_inv_tail F) H1) as (a2 & E2 & H2 & W2).
  exists a2. cbn [t_run]. rewrite E1. cbn [bind]. rewrite E2. cbn [bind sets_calls].
  destruct (scall_of c M lev) as [[M1 v1] r1]. cbn [fst snd] in *. destruct (scalls_of h M1 v1) as [[M2 v2] r2]. cbn [fst snd] in *.
  split; [reflexivity|]. split; [exact H2|]. exact (tvia_trans W1 W2).
Qed.
End Sets.
