(** Proofs about PyArrays.v: the methods refine a list of lists. *)
From Coq Require Import List Arith ZArith Lia Bool.
From Verif Require Import Base BaseProofs Mem BufferManip AoA AoASpec PyBase PyArrays PyArraysSpec.
From Verif Require AoALayout AoAProofs4.
Import ListNotations.
Set Implicit Arguments.
Unset Strict Implicit.

Section Proofs.
Variable V : Type.
Variable dflt : V.
Variable chk : bool.
Variable safe : nat -> nat -> bool.
Variable conv : nat -> nat -> V -> V.
Variable vtype : nat.
Notation arep := (@AoAProofs4.arep V unit true true (fun _ : V => tt)).
Notation st a l := (mkPA (Some a) l).
Notation step := (py_step chk safe conv vtype).

Lemma nth_row (M : list (list V)) k : k < length M -> nth_error M k = Some (nth k M []).
Proof. intros H. apply nth_error_nth'. exact H. Qed.
Lemma skipn_nth (T : Type) (l : list T) : forall k v, nth_error l k = Some v -> skipn k l = v :: skipn (k + 1) l.
Proof.
  induction l as [|x l IH]; intros [|k] v H; try discriminate; simpl in *; [injection H as <-; reflexivity|]. apply IH. exact H.
Qed.
Lemma read_row_ok a M K i r : arep a M K -> nth_error M i = Some r ->
  forall n j, j + n = length r -> read_row chk a i j n = Ok (skipn j r).
Proof.
  intros R N. induction n as [|n IH]; intros j H; simpl.
  - rewrite skipn_all2 by lia. reflexivity.
  - assert (J : exists v, nth_error r j = Some v). { destruct (nth_error r j) eqn:E; [eauto|]. apply nth_error_None in E. lia. }
    destruct J as (v & J). rewrite (AoAProofs4.rep_at chk R N J). cbn [bind]. rewrite IH by lia. cbn [bind]. f_equal.
    symmetry. apply skipn_nth. exact J.
Qed.
Lemma check_ok a M K i : arep a M K -> i < length M -> check_array chk a i = Ok tt.
Proof.
  intros R H. unfold check_array, check_if. rewrite (AoAProofs4.rep_num R). replace (length M <=? i) with false by (symmetry; apply Nat.leb_gt; lia).
  rewrite andb_false_r. reflexivity.
Qed.
Lemma view_ok a M K lev i : arep a M K -> i < length M -> view chk a lev i = Ok ((MODIFIABLE <=? lev)%Z, nth i M []).
Proof.
  intros R H. pose proof (nth_row H) as N. unfold view. rewrite (check_ok R H). cbn [bind]. rewrite (AoAProofs4.rep_size chk R N). cbn [bind].
  rewrite (read_row_ok R N) by reflexivity. reflexivity.
Qed.
Lemma plain_some n i k : plain n i = Some k -> (0 <= i < Z.of_nat n)%Z /\ k = Z.to_nat i /\ k < n.
Proof.
  unfold plain. destruct ((0 <=? i) && (i <? Z.of_nat n))%Z eqn:E; [|discriminate]. intros H. injection H as <-.
  apply andb_prop in E. destruct E as [E1 E2]. apply Z.leb_le in E1. apply Z.ltb_lt in E2. lia.
Qed.
Lemma plain_none n i : plain n i = None -> ((i <? 0) || (Z.of_nat n <=? i))%Z = true.
Proof.
  unfold plain. destruct ((0 <=? i) && (i <? Z.of_nat n))%Z eqn:E; [discriminate|]. intros _. apply andb_false_iff in E. apply orb_true_iff.
  destruct E as [E|E]; [left; apply Z.ltb_lt; apply Z.leb_gt in E; lia|right; apply Z.leb_le; apply Z.ltb_ge in E; lia].
Qed.
Lemma in_range n i : (0 <= i < Z.of_nat n)%Z -> ((i <? 0) || (Z.of_nat n <=? i))%Z = false.
Proof. intros H. apply orb_false_iff. split; [apply Z.ltb_ge|apply Z.leb_gt]; lia. Qed.
(** What the interpreter makes of an index *)
Lemma seq_ok a M K lev i : arep a M K ->
  match seq_index (st a lev) i with
  | inl i' => in_ll i = true /\ norm (length M) i = plain (length M) i'
  | inr e => e = EIndex /\ in_ll i = false /\ norm (length M) i = None
  end.
Proof.
  intros R. unfold seq_index, norm, plain, py_len. cbn [pa_array]. rewrite (AoAProofs4.rep_num R). destruct (in_ll i); cbn [negb andb]; [|auto].
  destruct (i <? 0)%Z eqn:E.
  - apply Z.ltb_lt in E. split; [reflexivity|]. replace (0 <=? i)%Z with false by (symmetry; apply Z.leb_gt; lia). cbn [andb].
    replace (i + Z.of_nat (length M) <? Z.of_nat (length M))%Z with true by (symmetry; apply Z.ltb_lt; lia). rewrite andb_true_r. reflexivity.
  - split; [reflexivity|]. cbn [andb]. destruct ((0 <=? i) && (i <? Z.of_nat (length M)))%Z; reflexivity.
Qed.
Lemma getitem_ok a M K lev i : arep a M K ->
  py_getitem chk (st a lev) i =
  Ok (st a lev, match plain (length M) i with Some k => PView (MODIFIABLE <=? lev)%Z (nth k M []) | None => PRaise EIndex end).
Proof.
  intros R. unfold py_getitem. cbn [pa_array pa_level]. rewrite (AoAProofs4.rep_num R). destruct (plain (length M) i) as [k|] eqn:P.
  - destruct (plain_some P) as (H & -> & L). rewrite (in_range H). rewrite (view_ok lev R L). reflexivity.
  - rewrite (plain_none P). reflexivity.
Qed.
Lemma iter_ok a M K lev : arep a M K -> forall fuel k, k <= length M -> length M - k < fuel ->
  py_iter chk fuel (st a lev) (Z.of_nat k) = Ok (inl (map (pair (MODIFIABLE <=? lev)%Z) (skipn k M))).
Proof.
  intros R. induction fuel as [|f IH]; intros k Hk Hf; [lia|]. cbn [py_iter]. rewrite (getitem_ok lev (Z.of_nat k) R). cbn [bind].
  destruct (Nat.eq_dec k (length M)) as [->|N].
  - unfold plain. replace (Z.of_nat (length M) <? Z.of_nat (length M))%Z with false by (symmetry; apply Z.ltb_ge; lia). rewrite andb_false_r.
    rewrite skipn_all. reflexivity.
  - unfold plain. replace ((0 <=? Z.of_nat k) && (Z.of_nat k <? Z.of_nat (length M)))%Z with true by (symmetry; apply andb_true_intro; split; [apply Z.leb_le|apply Z.ltb_lt]; lia).
    rewrite Nat2Z.id. replace (Z.of_nat k + 1)%Z with (Z.of_nat (k + 1)) by lia. rewrite IH by lia. cbn [bind].
    assert (E : nth_error M k = Some (nth k M [])) by (apply nth_row; lia). rewrite (skipn_nth E). reflexivity.
Qed.

(** A call of the container behind a Python call *)
Lemma call_ok c a M M' K : arep a M K -> vec_step dflt c M = Some M' ->
  exists a' K', astep chk true true false BMalloc dflt c a = Ok a' /\ arep a' M' K'.
Proof.
  intros R S. pose proof (@AoAProofs4.step_ok V unit chk true true (fun _ => tt) dflt c a M K R) as H. rewrite S in H.
  destruct H as [(a' & E & R')|[H _]]; [eauto|discriminate].
Qed.
(** The Python call leaves the array alone or is one call of it. *)
Definition via (a a' : aoa V unit) : Prop := exists h, length h <= 1 /\ arun chk true true false BMalloc dflt h a = Ok a'.
Lemma via_refl a : via a a. Proof. exists []. split; [simpl; lia|reflexivity]. Qed.
Lemma via_one c a a' : astep chk true true false BMalloc dflt c a = Ok a' -> via a a'.
Proof. intros E. exists [c]. split; [simpl; lia|]. simpl. rewrite E. reflexivity. Qed.

Definition good (c : pcall V) (a : aoa V unit) M lev (res : outcome (pyaoa V * pres V)) : Prop :=
  exists a' K', res = Ok (st a' (snd (fst (list_step safe conv vtype c M lev))), snd (list_step safe conv vtype c M lev)) /\
    arep a' (fst (fst (list_step safe conv vtype c M lev))) K' /\ via a a'.

Lemma on_row_some (M : list (list V)) k f r' : k < length M -> f (nth k M []) = Some r' -> on_row M k f = Some (put_at M k r').
Proof. intros L F. unfold on_row. rewrite (nth_row L), F. reflexivity. Qed.

Lemma py_step_ok c a M K lev : foreign c = true -> arep a M K -> good c a M lev (step c (st a lev)).
Proof.
  intros F R. pose proof (AoAProofs4.rep_num R) as N. unfold good.
  assert (Same : forall r, r = snd (list_step safe conv vtype c M lev) -> M = fst (fst (list_step safe conv vtype c M lev)) ->
            lev = snd (fst (list_step safe conv vtype c M lev)) ->
            exists a' K', Ok (st a lev, r) = Ok (st a' (snd (fst (list_step safe conv vtype c M lev))), snd (list_step safe conv vtype c M lev)) /\
              arep a' (fst (fst (list_step safe conv vtype c M lev))) K' /\ via a a').
  { intros r <- <- <-. exists a, K. auto using via_refl. }
  destruct c as [|i| |i|i|i j v|i j x|i x|i j| |l]; cbn [py_step].
  - unfold py_len. cbn [pa_array]. apply Same; cbn; congruence.
  - pose proof (seq_ok lev i R) as Q. destruct (seq_index (st a lev) i) as [i'|e].
    + destruct Q as [_ Q]. rewrite (getitem_ok lev i' R). apply Same; cbn [list_step]; rewrite Q; destruct (plain (length M) i'); reflexivity.
    + destruct Q as (-> & _ & Q). apply Same; cbn [list_step]; rewrite Q; reflexivity.
  - cbn [pa_array]. rewrite N. change 0%Z with (Z.of_nat 0). rewrite (@iter_ok a M K lev R (length M + 1) 0) by lia. cbn [bind]. apply Same; reflexivity.
  - pose proof (seq_ok lev i R) as Q. destruct (seq_index (st a lev) i) as [i'|e].
    + destruct Q as [Q1 Q]. unfold py_delitem. cbn [pa_array pa_level deref bind].
      destruct (lev <? RESIZEABLE)%Z eqn:E; [apply Same; cbn [list_step]; rewrite Q1, E; reflexivity|]. rewrite N.
      destruct (plain (length M) i') as [k|] eqn:P.
      * destruct (plain_some P) as (H & -> & L). rewrite (in_range H).
        assert (S : vec_step dflt (AEraseArray (Z.to_nat i')) M = Some (remove_at M (Z.to_nat i'))).
        { simpl. replace (Z.to_nat i' <? length M) with true by (symmetry; apply Nat.ltb_lt; exact L). reflexivity. }
        destruct (call_ok R S) as (a' & K' & E' & R'). pose proof (via_one E') as W. cbn [astep] in E'. rewrite E'. cbn [bind with_array pa_level].
        exists a', K'. cbn [list_step]. rewrite Q1, E, Q. cbn [negb fst snd]. auto.
      * rewrite (plain_none P). apply Same; cbn [list_step]; rewrite Q1, E, Q; reflexivity.
    + destruct Q as (-> & Q1 & Q). apply Same; cbn [list_step]; rewrite Q1; reflexivity.
  - pose proof (seq_ok lev i R) as Q. destruct (seq_index (st a lev) i) as [i'|e].
    + destruct Q as [Q1 Q]. unfold py_delitem. cbn [pa_array pa_level deref bind].
      destruct (lev <? RESIZEABLE)%Z eqn:E; apply Same; cbn [list_step]; rewrite Q1, E; reflexivity.
    + destruct Q as (-> & Q1 & Q). apply Same; cbn [list_step]; rewrite Q1; reflexivity.
  - unfold py_setElem. pose proof (seq_ok lev i R) as Q. destruct (seq_index (st a lev) i) as [i'|e].
    + destruct Q as [_ Q]. rewrite (getitem_ok lev i' R). cbn [bind]. destruct (plain (length M) i') as [k|] eqn:P.
      * cbn [pa_array]. destruct (MODIFIABLE <=? lev)%Z eqn:E; cbn [negb]; [|apply Same; cbn [list_step]; rewrite Q, E; reflexivity].
        destruct (plain_some P) as (H & Ek & L).
        set (r := nth k M []) in *. set (j' := if (j <? 0)%Z then (j + Z.of_nat (length r))%Z else j).
        destruct (in_ll j) eqn:J; cbn [negb]; [|apply Same; cbn [list_step]; rewrite Q, E; cbn [negb]; fold r; unfold norm; rewrite J; reflexivity].
        assert (Y : norm (length r) j = plain (length r) j').
        { unfold norm, plain, j'. rewrite J. cbn [andb]. destruct (j <? 0)%Z eqn:Ej.
          - apply Z.ltb_lt in Ej. replace (0 <=? j)%Z with false by (symmetry; apply Z.leb_gt; lia). cbn [andb].
            replace (j + Z.of_nat (length r) <? Z.of_nat (length r))%Z with true by (symmetry; apply Z.ltb_lt; lia). rewrite andb_true_r. reflexivity.
          - cbn [andb]. destruct ((0 <=? j) && (j <? Z.of_nat (length r)))%Z; reflexivity. }
        destruct (plain (length r) j') as [l|] eqn:P'.
        -- destruct (plain_some P') as (H' & El & L'). rewrite (in_range H').
           assert (S : vec_step dflt (ASet k l v) M = Some (put_at M k (put_at r l v))).
           { cbn [vec_step]. apply on_row_some; [exact L|]. fold r. replace (l <? length r) with true by (symmetry; apply Nat.ltb_lt; exact L'). reflexivity. }
           destruct (call_ok R S) as (a' & K' & E' & R'). pose proof (via_one E') as W. cbn [astep] in E'. rewrite <- Ek, <- El, E'. cbn [bind with_array pa_level].
           exists a', K'. cbn [list_step]. rewrite Q, E. cbn [negb]. fold r. rewrite Y. cbn [fst snd]. auto.
        -- rewrite (plain_none P'). apply Same; cbn [list_step]; rewrite Q, E; cbn [negb]; fold r; rewrite Y; reflexivity.
      * apply Same; cbn [list_step]; rewrite Q; reflexivity.
    + destruct Q as (-> & _ & Q). apply Same; cbn [list_step]; rewrite Q; reflexivity.
  - destruct x as [obj|]; [|discriminate]. cbn [eval_arg bind]. unfold py_insertInto. cbn [pa_array pa_level deref bind].
    destruct (lev <? RESIZEABLE)%Z eqn:E; [apply Same; cbn [list_step no_argument]; rewrite E; reflexivity|].
    destruct (in_ll i && in_ll j) eqn:I; cbn [negb]; [|apply Same; cbn [list_step no_argument]; rewrite E, I; reflexivity]. rewrite N.
    destruct (plain (length M) i) as [k|] eqn:P.
    + destruct (plain_some P) as (H & Ek & L). rewrite (in_range H). cbn [orb]. rewrite <- Ek. set (r := nth k M []) in *.
      pose proof (nth_row L) as NR. rewrite (AoAProofs4.rep_size chk R NR). cbn [bind]. fold r. fold r in NR.
      destruct (plain (length r + 1) j) as [l|] eqn:P'.
      * destruct (plain_some P') as (H' & El & L'). replace (j <? 0)%Z with false by (symmetry; apply Z.ltb_ge; lia).
        replace (Z.of_nat (length r) <? j)%Z with false by (symmetry; apply Z.ltb_ge; lia). cbn [with_values].
        destruct (parseNumPyArray safe conv vtype obj) as [vs|e] eqn:O;
          [|apply Same; cbn [list_step no_argument]; rewrite E, I, P; cbn [negb]; fold r; rewrite P'; cbn [values_of]; rewrite O; reflexivity].
        assert (S : vec_step dflt (AInsertInto k l vs) M = Some (put_at M k (firstn l r ++ vs ++ skipn l r))).
        { cbn [vec_step]. apply on_row_some; [exact L|]. fold r. replace (l <=? length r) with true by (symmetry; apply Nat.leb_le; lia). reflexivity. }
        destruct (call_ok R S) as (a' & K' & E' & R'). pose proof (via_one E') as W. cbn [astep] in E'. rewrite <- El, E'. cbn [bind with_array pa_level].
        exists a', K'. cbn [list_step no_argument]. rewrite E, I, P. cbn [negb]. fold r. rewrite P'. cbn [values_of]. rewrite O. cbn [fst snd]. auto.
      * assert (B : ((j <? 0) || (Z.of_nat (length r) <? j))%Z = true).
        { pose proof (plain_none P') as B. apply orb_true_iff in B. apply orb_true_iff. destruct B as [B|B]; [left; exact B|right].
          apply Z.leb_le in B. apply Z.ltb_lt. lia. }
        destruct (j <? 0)%Z; [|cbn [orb] in B; rewrite B]; apply Same; cbn [list_step no_argument]; rewrite E, I, P; cbn [negb]; fold r; rewrite P'; reflexivity.
    + rewrite (plain_none P). cbn [orb]. apply Same; cbn [list_step no_argument]; rewrite E, I, P; reflexivity.
  - destruct x as [obj|]; [|discriminate]. cbn [eval_arg bind]. unfold py_insert. cbn [pa_array pa_level deref bind].
    destruct (lev <? RESIZEABLE)%Z eqn:E; [apply Same; cbn [list_step no_argument]; rewrite E; reflexivity|].
    destruct (in_ll i) eqn:I; cbn [negb]; [|apply Same; cbn [list_step no_argument]; rewrite E, I; reflexivity]. rewrite N.
    destruct (plain (length M + 1) i) as [k|] eqn:P.
    + destruct (plain_some P) as (H & Ek & L). replace (i <? 0)%Z with false by (symmetry; apply Z.ltb_ge; lia).
      replace (Z.of_nat (length M) <? i)%Z with false by (symmetry; apply Z.ltb_ge; lia). cbn [orb with_values].
      destruct (parseNumPyArray safe conv vtype obj) as [vs|e] eqn:O;
        [|apply Same; cbn [list_step no_argument]; rewrite E, I, P; cbn [negb values_of]; rewrite O; reflexivity].
      assert (S : vec_step dflt (AInsertArray k vs) M = Some (insert_at M k vs)).
      { cbn [vec_step]. replace (k <=? length M) with true by (symmetry; apply Nat.leb_le; lia). reflexivity. }
      destruct (call_ok R S) as (a' & K' & E' & R'). pose proof (via_one E') as W. cbn [astep] in E'. rewrite <- Ek, E'. cbn [bind with_array pa_level].
      exists a', K'. cbn [list_step no_argument]. rewrite E, I, P. cbn [negb values_of]. rewrite O. cbn [fst snd]. auto.
    + assert (B : ((i <? 0) || (Z.of_nat (length M) <? i))%Z = true).
      { pose proof (plain_none P) as B. apply orb_true_iff in B. apply orb_true_iff. destruct B as [B|B]; [left; exact B|right].
        apply Z.leb_le in B. apply Z.ltb_lt. lia. }
      rewrite B. apply Same; cbn [list_step no_argument]; rewrite E, I, P; reflexivity.
  - unfold py_eraseFrom. cbn [pa_array pa_level deref bind].
    destruct (lev <? RESIZEABLE)%Z eqn:E; [apply Same; cbn [list_step]; rewrite E; reflexivity|].
    destruct (in_ll i && in_ll j) eqn:I; cbn [negb]; [|apply Same; cbn [list_step]; rewrite E, I; reflexivity]. rewrite N.
    destruct (plain (length M) i) as [k|] eqn:P.
    + destruct (plain_some P) as (H & Ek & L). rewrite (in_range H). cbn [orb]. rewrite <- Ek. set (r := nth k M []) in *.
      pose proof (nth_row L) as NR. rewrite (AoAProofs4.rep_size chk R NR). cbn [bind]. fold r. fold r in NR.
      destruct (plain (length r) j) as [l|] eqn:P'.
      * destruct (plain_some P') as (H' & El & L'). replace (j <? 0)%Z with false by (symmetry; apply Z.ltb_ge; lia).
        replace (Z.of_nat (length r) <=? j)%Z with false by (symmetry; apply Z.leb_gt; lia).
        assert (S : vec_step dflt (AEraseFrom k l 1) M = Some (put_at M k (firstn l r ++ skipn (l + 1) r))).
        { cbn [vec_step]. apply on_row_some; [exact L|]. fold r. replace (l <? length r) with true by (symmetry; apply Nat.ltb_lt; lia).
          replace (l + 1 <=? length r) with true by (symmetry; apply Nat.leb_le; lia). reflexivity. }
        destruct (call_ok R S) as (a' & K' & E' & R'). pose proof (via_one E') as W. cbn [astep] in E'. rewrite <- El, E'. cbn [bind with_array pa_level].
        exists a', K'. cbn [list_step]. rewrite E, I, P. cbn [negb]. fold r. rewrite P'. cbn [fst snd]. auto.
      * pose proof (plain_none P') as B.
        destruct (j <? 0)%Z; [|cbn [orb] in B; rewrite B]; apply Same; cbn [list_step]; rewrite E, I, P; cbn [negb]; fold r; rewrite P'; reflexivity.
    + rewrite (plain_none P). cbn [orb]. apply Same; cbn [list_step]; rewrite E, I, P; reflexivity.
  - apply Same; reflexivity.
  - cbn [pa_array]. destruct (in_int l) eqn:E.
    + exists a, K. cbn [list_step]. rewrite E. auto using via_refl.
    + apply Same; cbn [list_step]; rewrite E; reflexivity.
Qed.

Definition runs h a M lev (res : outcome (pyaoa V * list (pres V))) : Prop :=
  exists a' K' hs, res = Ok (st a' (snd (fst (list_run safe conv vtype h M lev))), snd (list_run safe conv vtype h M lev)) /\
    arep a' (fst (fst (list_run safe conv vtype h M lev))) K' /\ arun chk true true false BMalloc dflt hs a = Ok a'.
Lemma arun_app h1 h2 (a a1 a2 : aoa V unit) : arun chk true true false BMalloc dflt h1 a = Ok a1 ->
  arun chk true true false BMalloc dflt h2 a1 = Ok a2 -> arun chk true true false BMalloc dflt (h1 ++ h2) a = Ok a2.
Proof.
  revert a. induction h1 as [|c h IH]; intros a H1 H2; simpl in *; [congruence|].
  destruct (astep chk true true false BMalloc dflt c a); try discriminate. cbn [bind] in *. exact (IH _ H1 H2).
Qed.
Lemma py_run_ok h : forall a M K lev, forallb (@foreign V) h = true -> arep a M K ->
  runs h a M lev (py_run chk safe conv vtype h (st a lev)).
Proof.
  induction h as [|c h IH]; intros a M K lev F R.
  - exists a, K, []. repeat split; auto.
  - simpl in F. apply andb_prop in F. destruct F as [F F'].
    destruct (py_step_ok lev F R) as (a1 & K1 & E1 & R1 & (h1 & _ & W1)).
    destruct (IH _ _ _ (snd (fst (list_step safe conv vtype c M lev))) F' R1) as (a2 & K2 & h2 & E2 & R2 & W2).
    exists a2, K2, (h1 ++ h2). cbn [py_run]. rewrite E1. cbn [bind]. rewrite E2. cbn [bind]. cbn [list_run].
    destruct (list_step safe conv vtype c M lev) as [[M1 l1] r1]. cbn [fst snd] in *.
    destruct (list_run safe conv vtype h M1 l1) as [[M2 l2] r2]. cbn [fst snd] in *.
    split; [reflexivity|]. split; [exact R2|]. exact (arun_app W1 W2).
Qed.
End Proofs.
