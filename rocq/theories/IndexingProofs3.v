(** sumOverFirstDimension. *)
From Coq Require Import List Arith ZArith Lia Bool Permutation Sorted.
From Verif Require Import Base BaseProofs Indexing IndexingSpec IndexingProofs IndexingProofs2.
Import ListNotations.
Set Implicit Arguments.
Unset Strict Implicit.

(** The value of [s( idx... )]. *)
Definition value_at {V} chk (s : slice) (data : list V) (idx : list Z) : outcome V :=
  k <- slice_call chk s idx ;; slot_get data k.

(** The slots of valid indices are in range / distinct. *)
Definition in_range (s : slice) (n : nat) : Prop :=
  forall idx, valid_index (s_dims s) idx -> (0 <= slot_of s idx < Z.of_nat n)%Z.
Definition distinct (s : slice) : Prop :=
  forall i j, valid_index (s_dims s) i -> valid_index (s_dims s) j -> slot_of s i = slot_of s j -> i = j.

Lemma whole_in_range perm dims : is_permutation perm (length dims) -> 0 < length dims ->
  in_range (whole perm dims) (prod dims).
Proof. intros P H idx V. unfold slot_of. simpl. apply linear_index_in_range; auto. Qed.
Lemma whole_distinct perm dims : is_permutation perm (length dims) -> 0 < length dims ->
  distinct (whole perm dims).
Proof. intros P H i j Vi Vj E. apply linear_index_injective with (perm := perm) in E; auto. Qed.

Lemma value_at_valid {V} chk s (data : list V) idx z : valid_index (s_dims s) idx ->
  in_range s (length data) -> value_at chk s data idx = Ok (nth (Z.to_nat (slot_of s idx)) data z).
Proof.
  intros Vi R. specialize (R idx Vi). unfold value_at. rewrite slice_call_valid by auto. simpl.
  unfold slot_get, to_ix. fold (slot_of s idx).
  destruct (Z.ltb_spec (slot_of s idx) 0); [lia|]. simpl. apply aget_nth. lia.
Qed.

Section S.
Variable V : Type.
Variable add : V -> V -> V.
Variable chk : bool.
Variables (dst : slice).
Variable z : V.
Hypothesis D : distinct dst.
Notation slotn idx := (Z.to_nat (slot_of dst idx)).

Lemma inner_pass (sv : list Z -> V) : forall L dd,
  (forall idx, In idx L -> valid_index (s_dims dst) idx) -> NoDup L -> in_range dst (length dd) ->
  oks (fold_out (fun idx dd => k' <- slice_call chk dst idx ;; old <- slot_get dd k' ;;
                               slot_set dd k' (add old (sv idx))) L dd)
      (fun dd' => length dd' = length dd /\
         forall idx, valid_index (s_dims dst) idx ->
           (In idx L -> nth (slotn idx) dd' z = add (nth (slotn idx) dd z) (sv idx)) /\
           (~ In idx L -> nth (slotn idx) dd' z = nth (slotn idx) dd z)).
Proof.
  induction L as [|i L IH]; intros dd HV ND R; simpl.
  - apply oks_ok. split; auto. intros. split; [tauto|auto].
  - inversion ND; subst.
    assert (Vi : valid_index (s_dims dst) i) by (apply HV; simpl; auto).
    pose proof (R i Vi) as Ri.
    rewrite slice_call_valid by auto. simpl. fold (slot_of dst i).
    unfold slot_get, slot_set, to_ix. destruct (Z.ltb_spec (slot_of dst i) 0); [lia|]. simpl.
    rewrite (@aget_nth _ dd _ z) by lia. simpl. rewrite aset_ok by lia. simpl.
    eapply oks_mono.
    + apply IH; auto.
      * intros; apply HV; simpl; auto.
      * rewrite upd_length. auto.
    + intros dd' [L1 L2]. rewrite upd_length in L1. split; auto.
      intros idx Vx. destruct (L2 idx Vx) as [A B]. pose proof (R idx Vx) as Rx. split.
      * intros [-> | Hin].
        -- rewrite B by auto. apply nth_upd_eq. lia.
        -- rewrite A by auto. f_equal. apply nth_upd_ne. intros E.
           assert (i = idx) by (apply D; auto; lia). subst. auto.
      * intros Hn. rewrite B by tauto. apply nth_upd_ne. intros E.
        assert (i = idx) by (apply D; auto; lia). subst. tauto.
Qed.

Lemma outer_pass (sv : nat -> list Z -> V) n dd :
  in_range dst (length dd) ->
  oks (for_up n (fun i dd => fold_out (fun idx dd => k' <- slice_call chk dst idx ;; old <- slot_get dd k' ;;
                               slot_set dd k' (add old (sv i idx))) (lexenum (s_dims dst)) dd) 0 dd)
      (fun dd' => length dd' = length dd /\
         forall idx, valid_index (s_dims dst) idx ->
           nth (slotn idx) dd' z = fold_left add (map (fun i => sv i idx) (seq 0 n)) (nth (slotn idx) dd z)).
Proof.
  intros R. 
  apply (@oks_for_up _ (fun m dd' => length dd' = length dd /\
         forall idx, valid_index (s_dims dst) idx ->
           nth (slotn idx) dd' z = fold_left add (map (fun i => sv i idx) (seq 0 m)) (nth (slotn idx) dd z)) n _ 0 dd).
  - split; auto.
  - intros m dd' _ [L H]. eapply oks_mono.
    + apply (@inner_pass (sv m) (lexenum (s_dims dst)) dd').
      * intros idx Hi. apply in_lexenum; auto.
      * eapply StronglySorted_NoDup; [apply lex_lt_irrefl|apply lexenum_sorted].
      * rewrite L. auto.
    + intros dd'' [L2 H2]. split; [lia|]. intros idx Vi. destruct (H2 idx Vi) as [A _].
      rewrite A by (apply in_lexenum; auto). rewrite H by auto.
      rewrite seq_app, map_app, fold_left_app. reflexivity.
Qed.
End S.

Lemma nth_error_map_seq {A} (f : nat -> A) d i : i < d -> nth_error (map f (seq 0 d)) i = Some (f i).
Proof.
  intros H. apply (map_nth_error f i).
  rewrite (nth_error_nth' _ 0) by (rewrite seq_length; auto). rewrite seq_nth; auto.
Qed.

Lemma fold_out_ok {A St} (l : list A) (s : St) : fold_out (fun _ s => Ok s) l s = Ok s.
Proof. induction l; simpl; auto. Qed.

Theorem sum_first_ok {V} (add : V -> V -> V) chk src sdata dst ddata d :
  unit_ok src -> in_range src (length sdata) -> in_range dst (length ddata) -> distinct dst ->
  s_dims src = d :: s_dims dst ->
  exists dd', sumOverFirstDimension add chk src sdata dst ddata = Ok dd' /\ length dd' = length ddata /\
    forall idx old, valid_index (s_dims dst) idx -> value_at chk dst ddata idx = Ok old ->
      exists vals, length vals = d /\
        (forall i, i < d -> exists v, nth_error vals i = Some v /\
                     value_at chk src sdata (Z.of_nat i :: idx) = Ok v) /\
        value_at chk dst dd' idx = Ok (fold_left add vals old).
Proof.
  intros U Rs Rd Dd E. unfold sumOverFirstDimension. rewrite E. cbn [tl].
  destruct (list_eq_dec Nat.eq_dec (s_dims dst) (s_dims dst)); [|congruence]. cbn [negb error_if bind].
  rewrite <- E. rewrite forValues_fold by auto. rewrite E. cbn [lexenum].
  rewrite fold_out_flat_map. rewrite <- for_up_fold.
  destruct ddata as [|z ddata'] eqn:Ed.
  - assert (lexenum (s_dims dst) = []) as ->.
    { destruct (lexenum (s_dims dst)) as [|i L] eqn:EL; auto.
      assert (Vi : valid_index (s_dims dst) i) by (apply in_lexenum; rewrite EL; simpl; auto).
      specialize (Rd i Vi). simpl in Rd. lia. }
    exists []. split; [|split; auto].
    + rewrite for_up_fold. simpl. apply fold_out_ok.
    + intros idx old Vi. specialize (Rd idx Vi). simpl in Rd. lia.
  - rewrite <- Ed in *. clear Ed.
    set (sv := fun i idx => nth (Z.to_nat (slot_of src (Z.of_nat i :: idx))) sdata z).
    destruct (@outer_pass V add chk dst z Dd sv d ddata Rd) as (dd' & A & L & H).
    exists dd'. split; [|split; auto].
    + rewrite <- A. rewrite !for_up_fold. apply fold_out_ext. intros i s Hi. apply in_seq in Hi.
      rewrite fold_out_map. apply fold_out_ext. intros idx s' Hx. apply in_lexenum in Hx.
      assert (Vs : valid_index (s_dims src) (Z.of_nat i :: idx)) by (rewrite E; constructor; auto; lia).
      pose proof (Rs _ Vs) as R1. cbn [app tl]. unfold slot_get at 1, to_ix at 1.
      destruct (Z.ltb_spec (slot_of src (Z.of_nat i :: idx)) 0); [lia|]. cbn [bind].
      rewrite (@aget_nth _ sdata _ z) by lia. reflexivity.
    + intros idx old Vi Vo. exists (map (fun i => sv i idx) (seq 0 d)). split; [len|]. split.
      * intros i Hi. exists (sv i idx). split.
        -- apply (@nth_error_map_seq _ (fun i => sv i idx)); auto.
        -- apply value_at_valid; auto. rewrite E. constructor; auto. lia.
      * rewrite (@value_at_valid _ chk dst ddata idx z) in Vo by auto. injection Vo as <-.
        rewrite (@value_at_valid _ chk dst dd' idx z); [|auto|rewrite L; auto]. rewrite H by auto. reflexivity.
Qed.

Theorem sum_first_1_ok {V} (add : V -> V -> V) chk src sdata dst d :
  in_range src (length sdata) -> s_dims src = [d] ->
  exists vals, length vals = d /\
    (forall i, i < d -> exists v, nth_error vals i = Some v /\ value_at chk src sdata [Z.of_nat i] = Ok v) /\
    sumOverFirstDimension1 add chk src sdata dst = Ok (fold_left add vals dst).
Proof.
  intros R E. unfold sumOverFirstDimension1. rewrite E.
  destruct d as [|d0] eqn:Ed; [exists []; simpl; repeat split; auto; intros; lia|]. rewrite <- Ed in *.
  assert (V0 : forall i, i < d -> valid_index (s_dims src) [Z.of_nat i]).
  { intros i Hi. rewrite E. constructor; [lia|constructor]. }
  destruct sdata as [|z sd] eqn:Es.
  { specialize (R _ (V0 0 ltac:(lia))). simpl in R. lia. } rewrite <- Es in *. clear Es.
  set (sv := fun i => nth (Z.to_nat (slot_of src [Z.of_nat i])) sdata z).
  exists (map sv (seq 0 d)). split; [len|]. split.
  - intros i Hi. exists (sv i). split.
    + apply nth_error_map_seq; auto.
    + apply value_at_valid; auto.
  - destruct (@oks_for_up _ (fun m acc => m <= d -> acc = fold_left add (map sv (seq 0 m)) dst) d
        (fun i acc => k <- slice_call chk src [Z.of_nat i] ;; v <- slot_get sdata k ;; Ok (add acc v)) 0 dst)
      as (r & A & B).
    + auto.
    + intros m acc Hm H. specialize (H ltac:(lia)). subst acc.
      pose proof (@value_at_valid _ chk src sdata [Z.of_nat m] z) as VA. unfold value_at in VA.
      rewrite slice_call_valid in * by (apply V0; lia). cbn [bind] in *.
      rewrite VA by (auto; apply V0; lia). simpl.
      apply oks_ok. intros _. rewrite seq_app, map_app, fold_left_app. reflexivity.
    + rewrite A. f_equal. apply B. lia.
Qed.

Lemma nth_ext_err {A} (l l' : list A) : (forall i, nth_error l i = nth_error l' i) -> l = l'.
Proof.
  revert l'; induction l as [|x l IH]; intros [|y l'] H; auto.
  - specialize (H 0). discriminate.
  - specialize (H 0). discriminate.
  - f_equal; [specialize (H 0); simpl in H; congruence|]. apply IH. intros i. apply (H (S i)).
Qed.
Lemma to_ix_of_nat n : to_ix (Z.of_nat n) = Ok n.
Proof. apply to_ix_nat. Qed.
