From Coq Require Import List Arith ZArith Lia Bool Permutation.
From Verif Require Import Base BaseProofs Mem MemProofs ArrayManipProofs BufferManipProofs.
From Verif Require Import Indexing IndexingSpec IndexingProofs IndexingProofs2 IndexingProofs3 Array ArraySpec.
From Verif Require ArrayManip BufferManip.
Import ListNotations.
Set Implicit Arguments.
Unset Strict Implicit.

(** ** Changing the extent of one dimension, on the flat list of values *)
Section Relayout.
Variable V : Type.
Implicit Types (vs : list V) (v : V).

Definition blk (S : nat) vs (o : nat) : list V := firstn S (skipn (o * S) vs).
Definition relayout (outer S N : nat) vs v : list V :=
  flat_map (fun o => list_resize (blk S vs o) N v) (seq 0 outer).

Lemma flat_map_length_const {A} (f : A -> list V) N l :
  (forall x, In x l -> length (f x) = N) -> length (flat_map f l) = length l * N.
Proof.
  induction l as [|x l IH]; intros H; simpl; auto. rewrite app_length, IH.
  - rewrite H by (simpl; auto). auto.
  - intros; apply H; simpl; auto.
Qed.

Lemma relayout_length outer S N vs v : length (relayout outer S N vs v) = outer * N.
Proof.
  unfold relayout. rewrite (@flat_map_length_const _ _ N).
  - rewrite seq_length. auto.
  - intros. apply list_resize_length.
Qed.

Lemma nth_flat_map (f : nat -> list V) N outer : forall j o t,
  (forall x, length (f x) = N) -> o < outer -> t < N ->
  nth_error (flat_map f (seq j outer)) (o * N + t) = nth_error (f (j + o)) t.
Proof.
  induction outer as [|outer IH]; intros j o t H Ho Ht; [lia|]. simpl.
  destruct o as [|o].
  - simpl. rewrite nth_error_app1 by (rewrite H; auto). rewrite Nat.add_0_r. auto.
  - rewrite nth_error_app2 by (rewrite H; simpl; nia). rewrite H.
    replace (Datatypes.S o * N + t - N) with (o * N + t) by (simpl; nia). rewrite IH by (auto; lia).
    f_equal. f_equal. lia.
Qed.

Lemma nth_error_firstn' {A} (l : list A) n i : i < n -> nth_error (firstn n l) i = nth_error l i.
Proof. revert n i; induction l; intros [|n] [|i] H; simpl; auto; try lia. apply IHl; lia. Qed.
Lemma nth_error_skipn' {A} (l : list A) n i : nth_error (skipn n l) i = nth_error l (n + i).
Proof. revert l; induction n; intros [|x l]; simpl; auto. destruct i; auto. Qed.

Lemma skipn_skipn' {A} a b (l : list A) : skipn a (skipn b l) = skipn (b + a) l.
Proof. revert l; induction b; intros [|x l]; simpl; auto. apply skipn_nil. Qed.

Lemma blk_length outer S vs o : length vs = outer * S -> o < outer -> length (blk S vs o) = S.
Proof. intros L H. unfold blk. rewrite firstn_length, skipn_length, L. nia. Qed.

Lemma nth_relayout outer S N vs v o t : length vs = outer * S -> o < outer -> t < N ->
  nth_error (relayout outer S N vs v) (o * N + t) =
  if t <? S then nth_error vs (o * S + t) else Some v.
Proof.
  intros L Ho Ht. unfold relayout. rewrite nth_flat_map; auto; [|intros; apply list_resize_length].
  simpl. unfold list_resize. pose proof (blk_length L Ho) as LB.
  destruct (Nat.ltb_spec t S).
  - rewrite nth_error_app1 by (rewrite firstn_length; lia). rewrite nth_error_firstn' by auto.
    unfold blk. rewrite nth_error_firstn' by auto. apply nth_error_skipn'.
  - rewrite nth_error_app2 by (rewrite firstn_length; lia).
    rewrite firstn_length. rewrite (nth_error_nth' _ v) by (rewrite repeat_length; lia).
    f_equal. apply nth_repeat.
Qed.

Lemma vs_blocks outer S vs : length vs = outer * S -> vs = flat_map (blk S vs) (seq 0 outer).
Proof.
  intros L. 
  assert (G : forall n j, (j + n) = outer -> skipn (j * S) vs = flat_map (blk S vs) (seq j n)).
  { induction n as [|n IH]; intros j E; simpl.
    - apply skipn_all2. rewrite L. nia.
    - rewrite <- IH by lia. unfold blk at 1. simpl.
      replace (S + j * S) with (S + (j * S)) by lia.
      rewrite <- (firstn_skipn S (skipn (j * S) vs)) at 1. f_equal.
      rewrite skipn_skipn'. f_equal. lia. }
  rewrite <- (G outer 0) by lia. reflexivity.
Qed.

Lemma relayout_same outer S vs v : length vs = outer * S -> relayout outer S S vs v = vs.
Proof.
  intros L. rewrite (vs_blocks L) at 2. unfold relayout. 
  rewrite !flat_map_concat_map. f_equal. apply map_ext_in. intros o Ho. apply in_seq in Ho.
  assert (E : length (blk S vs o) = S) by (apply (blk_length L); lia).
  unfold list_resize. rewrite E, Nat.sub_diag. simpl. rewrite app_nil_r. rewrite <- E at 1. apply firstn_all.
Qed.

Lemma relayout_one S N vs v : length vs = S -> relayout 1 S N vs v = list_resize vs N v.
Proof.
  intros L. unfold relayout, blk. simpl. rewrite app_nil_r. f_equal. rewrite <- L. apply firstn_all.
Qed.

Lemma firstn_blk k S vs : firstn ((k + 1) * S) vs = firstn (k * S) vs ++ blk S vs k.
Proof.
  unfold blk. replace ((k + 1) * S) with (k * S + S) by lia.
  generalize (k * S) as m. clear k. intros m. revert vs; induction m; intros vs; simpl; auto.
  destruct vs; simpl; [rewrite firstn_nil; auto|]. f_equal. apply IHm.
Qed.
Lemma skipn_blk k S vs : skipn (k * S) vs = blk S vs k ++ skipn ((k + 1) * S) vs.
Proof.
  unfold blk. rewrite <- (firstn_skipn S (skipn (k * S) vs)) at 1. f_equal.
  rewrite skipn_skipn'. f_equal. lia.
Qed.
End Relayout.

(** ** Loops of resizeDefaultDimension *)
Section Loops.
Variable V : Type.
Variable chk triv : bool.
Notation mem := (@mem V triv).
Notation LVs := (map (@LV V)).

Lemma grow_loop_ok b vs outer S A v r :
  length vs = outer * S ->
  mem b (LVs vs ++ repeat LN (A * outer) ++ repeat LN r) ->
  oks (for_down outer (fun i b =>
         b1 <- ArrayManip.shiftUp chk triv b (S * i) S 0 (A * i) ;;
         for_up A (fun j b => construct triv b (S * i + S + A * i + j) v) 0 b1) b)
      (fun b' => mem b' (LVs (relayout outer S (S + A) vs v) ++ repeat LN r)).
Proof.
  intros L M.
  set (tl := fun k => flat_map (fun o => blk S vs o ++ repeat v A) (seq k (outer - k))).
  eapply oks_mono.
  - apply oks_for_down with (I := fun k b =>
      mem b (LVs (firstn (k * S) vs) ++ repeat LN (A * k) ++ LVs (tl k) ++ repeat LN r)).
    + rewrite <- L, firstn_all. unfold tl. rewrite Nat.sub_diag. simpl. exact M.
    + intros k b0 Hk M0. eapply oks_bind.
      * apply shiftUp_ok with (p := LVs (firstn (k * S) vs)) (xs := []) (ys := blk S vs k)
          (s := repeat LN A ++ LVs (tl (k + 1)) ++ repeat LN r) (n := A * k).
        -- eapply mem_cast; [exact M0|]. replace (Datatypes.S k) with (k + 1) by lia.
           rewrite firstn_blk, map_app. replace (A * (k + 1)) with (A * k + A) by lia.
           rewrite repeat_app_add. lapp. reflexivity.
        -- len. nia.
        -- reflexivity.
        -- simpl. rewrite (blk_length L); auto.
      * intros b1 M1. simpl in M1.
        eapply oks_mono.
        -- apply construct_run_ok with (p := LVs (firstn (k * S) vs) ++ repeat LN (A * k) ++ LVs (blk S vs k))
             (s := LVs (tl (k + 1)) ++ repeat LN r).
           ++ eapply mem_cast; [exact M1|]. lapp. reflexivity.
           ++ rewrite !app_length, !map_length, repeat_length, (blk_length L) by auto.
              rewrite firstn_length. nia.
        -- intros b2 M2. eapply mem_cast; [exact M2|]. unfold tl.
           replace (outer - k) with (Datatypes.S (outer - (k + 1))) by lia. simpl.
           replace (k + 1) with (Datatypes.S k) by lia. rewrite !map_app. lapp. reflexivity.
  - intros b' M'. simpl in M'. rewrite Nat.mul_0_r in M'. simpl in M'. eapply mem_cast; [exact M'|].
    f_equal. f_equal. unfold tl, relayout. rewrite Nat.sub_0_r. rewrite !flat_map_concat_map. f_equal.
    apply map_ext_in. intros o Ho. apply in_seq in Ho.
    assert (E : length (blk S vs o) = S) by (apply (blk_length L); lia).
    unfold list_resize. rewrite E. rewrite firstn_all2 by lia. f_equal. f_equal. lia.
Qed.

Lemma shrink_loop_ok b vs outer S N r :
  length vs = outer * S -> N <= S -> 0 < outer ->
  mem b (LVs vs ++ repeat LN r) ->
  oks (b1 <- for_up (outer - 1) (fun i b =>
               ArrayManip.shiftDown chk triv b (N * i) (N + (S - N) * i) ((S - N) * i) ((S - N) * i)) 1 b ;;
       ArrayManip.destroy triv b1 (outer * N) ((S - N) * outer))
      (fun b' => forall v, mem b' (LVs (relayout outer S N vs v) ++ repeat LN ((S - N) * outer + r))).
Proof.
  intros L HN Ho M. set (R := S - N).
  set (K := fun o => firstn N (blk S vs o)). set (X := fun o => skipn N (blk S vs o)).
  assert (LK : forall o, o < outer -> length (K o) = N).
  { intros o Hoo. unfold K. rewrite firstn_length, (blk_length L) by auto. lia. }
  assert (LX : forall o, o < outer -> length (X o) = R).
  { intros o Hoo. unfold X. rewrite skipn_length, (blk_length L) by auto. lia. }
  assert (LKs : forall i, i <= outer -> length (flat_map K (seq 0 i)) = i * N).
  { intros i Hi. rewrite (@flat_map_length_const _ _ _ N), seq_length; auto.
    intros x Hx. apply in_seq in Hx. apply LK. lia. }
  eapply oks_bind.
  - apply oks_for_up with (I := fun i b => exists ws, length ws = R * i /\ Forall live ws /\
      mem b (LVs (flat_map K (seq 0 i)) ++ ws ++ LVs (skipn (i * S) vs) ++ repeat LN r)).
    + exists (LVs (X 0)). rewrite map_length, LX by auto. split; [lia|]. split.
      { apply Forall_forall. intros x Hx. apply in_map_iff in Hx. destruct Hx as (y & <- & _). discriminate. }
      eapply mem_cast; [exact M|]. change (seq 0 1) with [0]. simpl flat_map. rewrite app_nil_r.
      transitivity (LVs (skipn (0 * S) vs) ++ repeat LN r); [reflexivity|].
      rewrite (skipn_blk 0). simpl (0 + 1). rewrite <- (firstn_skipn N (blk S vs 0)). rewrite !map_app.
      lapp. reflexivity.
    + intros i b0 Hi (ws & Lw & Lv & M0).
      eapply oks_mono.
      * apply shiftDown_ok with (p := LVs (flat_map K (seq 0 i))) (ds := ws) (ys := K i)
          (s := LVs (X i) ++ LVs (skipn ((i + 1) * S) vs) ++ repeat LN r).
        -- eapply mem_cast; [exact M0|]. rewrite (skipn_blk i). rewrite <- (firstn_skipn N (blk S vs i)) at 1.
           fold (K i) (X i). rewrite !map_app. lapp. reflexivity.
        -- auto.
        -- auto.
        -- rewrite map_length, LKs by lia. nia.
        -- rewrite LK by lia. lia.
        -- nia.
      * intros b1 (ws' & Lw' & Lv' & M1). exists (ws' ++ LVs (X i)). split; [|split].
        -- rewrite app_length, map_length, LX by lia. nia.
        -- apply Forall_app. split; auto.
        -- eapply mem_cast; [exact M1|]. rewrite seq_app, flat_map_app, map_app. simpl. rewrite app_nil_r.
           lapp. reflexivity.
  - intros b1 (ws & Lw & Lv & M1). replace (1 + (outer - 1)) with outer in * by lia.
    rewrite skipn_all2 in M1 by lia. simpl in M1.
    eapply oks_mono.
    + apply destroy_ok with (p := LVs (flat_map K (seq 0 outer))) (m := ws) (s := repeat LN r); auto.
      rewrite map_length, LKs; auto.
    + intros b' M' v. eapply mem_cast; [exact M'|]. rewrite repeat_app_add. f_equal. f_equal.
      unfold relayout. rewrite !flat_map_concat_map. f_equal. apply map_ext_in. intros o Hoo. apply in_seq in Hoo.
      unfold K, list_resize. rewrite (blk_length L) by lia. replace (N - S) with 0 by lia. simpl.
      rewrite app_nil_r. auto.
Qed.
End Loops.

Lemma app_inj_length {A} (a b c d : list A) : a ++ b = c ++ d -> length a = length c -> a = c /\ b = d.
Proof.
  revert c; induction a as [|x a IH]; intros [|y c] H L; try discriminate; auto.
  injection H as -> H. injection L as L. destruct (IH c H L) as [-> ->]. auto.
Qed.

Lemma valid_nth dims idx : length idx = length dims ->
  (valid_index dims idx <-> forall k, k < length dims -> (0 <= nth k idx 0 < Z.of_nat (nth k dims 0%nat))%Z).
Proof.
  revert idx; induction dims as [|d dims IH]; intros [|i idx] L; try discriminate; split; intros H.
  - intros; simpl in *; lia.
  - constructor.
  - inversion H; subst. intros [|k] Hk; simpl; auto. apply (proj1 (IH idx ltac:(auto))); auto. simpl in Hk; lia.
  - constructor; [apply (H 0); simpl; lia|]. apply (proj2 (IH idx ltac:(auto))). intros k Hk.
    apply (H (S k)); simpl; lia.
Qed.

(** ** The invariant of an Array *)
Section Arr.
Variable V : Type.
Variable chk triv : bool.
Variable kind : BufferManip.bkind.
Variable perm : list nat.
Variable dflt : V.
Hypothesis P : is_permutation perm (length perm).
Hypothesis NZ : 0 < length perm.
Notation NDIM := (length perm).
Notation array := (array V).
Notation holds := (@holds V triv).

Definition arr_ok (a : array) (vs : list V) : Prop :=
  length (a_dims a) = NDIM /\ a_strides a = calculateStrides perm (a_dims a) /\ a_rix a < NDIM /\
  length vs = prod (a_dims a) /\ holds (a_buf a) vs.

Definition slotn (dims : list nat) (idx : list Z) : nat :=
  lin (gather perm dims) (gather perm (map Z.to_nat idx)).

Lemma Pd (dims : list nat) : length dims = NDIM -> is_permutation perm (length dims).
Proof. intros ->. exact P. Qed.

Lemma call_slot a vs idx : arr_ok a vs -> valid_index (a_dims a) idx ->
  slice_call chk (toSlice perm a) idx = Ok (Z.of_nat (slotn (a_dims a) idx)) /\
  slotn (a_dims a) idx < length vs.
Proof.
  intros (L & S & R & LV & H) Vi. rewrite slice_call_valid by exact Vi.
  simpl. rewrite S, linear_index_lin; auto.
  - split; auto. rewrite LV. destruct (valid_to_nat Vi) as [F _].
    rewrite <- (@gather_prod perm) by (apply Pd; auto). apply lin_bound, gather_lt; auto. apply Pd; auto.
  - apply Pd; auto.
  - lia.
Qed.

Lemma at_ok a vs idx : arr_ok a vs -> valid_index (a_dims a) idx ->
  exists v, nth_error vs (slotn (a_dims a) idx) = Some v /\ at_ chk perm a idx = Ok v.
Proof.
  intros A Vi. destruct (call_slot A Vi) as [C Lt]. destruct A as (L & S & R & LV & H).
  destruct (nth_error vs (slotn (a_dims a) idx)) as [v|] eqn:E.
  - exists v. split; auto. unfold at_. rewrite C. simpl. rewrite to_ix_nat. simpl.
    eapply holds_rd; eauto.
  - apply nth_error_None in E. lia.
Qed.

Lemma size_ok a vs : arr_ok a vs -> size a = length vs.
Proof. intros (L & S & R & LV & H). unfold size. rewrite multiplyAll_prod. auto. Qed.

(** Splitting the permutation at the resized dimension. *)
Lemma perm_split r : r < NDIM -> exists po pi, perm = po ++ r :: pi /\ ~ In r po /\ ~ In r pi.
Proof.
  intros H. destruct (perm_facts P) as (_ & ND & B). assert (In r perm) as Hin by (apply B; auto).
  destruct (in_split _ _ Hin) as (po & pi & E). exists po, pi. split; auto.
  rewrite E in ND. apply NoDup_remove_2 in ND. split; intros X; apply ND, in_or_app; auto.
Qed.

Lemma gather_upd_out q dims r n : ~ In r q -> gather q (upd dims r n) = gather q dims.
Proof.
  intros H. unfold gather. apply map_ext_in. intros p Hp. apply nth_upd_ne. intros ->. auto.
Qed.

Lemma lin_app O i0 : forall c I i ii, length O = length i0 ->
  lin (O ++ c :: I) (i0 ++ i :: ii) = (lin O i0 * c + i) * prod I + lin I ii.
Proof.
  revert i0; induction O as [|o O IH]; intros [|x i0] c I i ii E; try discriminate.
  - simpl. lia.
  - injection E as E. simpl app. 
    change (lin (o :: O ++ c :: I) (x :: i0 ++ i :: ii)) with
      (x * prod (O ++ c :: I) + lin (O ++ c :: I) (i0 ++ i :: ii)).
    change (lin (o :: O) (x :: i0)) with (x * prod O + lin O i0).
    rewrite IH by auto. rewrite prod_app. change (prod (c :: I)) with (c * prod I). lia.
Qed.

Section Split.
Variables (po pi : list nat) (r : nat) (dims : list nat) (n : nat).
Hypothesis E : perm = po ++ r :: pi.
Hypothesis N1 : ~ In r po.
Hypothesis N2 : ~ In r pi.
Hypothesis L : length dims = NDIM.
Hypothesis Hr : r < NDIM.
Notation outer := (prod (gather po dims)).
Notation inner := (prod (gather pi dims)).
Notation cur := (nth r dims 0).

Lemma split_prod : prod dims = outer * (cur * inner).
Proof.
  rewrite <- (@gather_prod perm) by (apply Pd; auto). rewrite E. unfold gather at 1.
  rewrite map_app, prod_app. reflexivity.
Qed.

Lemma split_prod_upd : prod (upd dims r n) = outer * (n * inner).
Proof.
  rewrite <- (@gather_prod perm) by (apply Pd; rewrite upd_length; auto). rewrite E. unfold gather at 1.
  rewrite map_app, prod_app. simpl map. change (prod (?x :: ?l)) with (x * prod l).
  rewrite nth_upd_eq by lia. fold (gather po (upd dims r n)) (gather pi (upd dims r n)).
  rewrite !gather_upd_out; auto.
Qed.

Lemma split_stride : nth r (calculateStrides perm dims) 0 = inner.
Proof.
  rewrite E. rewrite strides_split; [reflexivity|]. rewrite <- E. apply Pd; auto.
Qed.

(** The slot of an index tuple in the old and new layout. *)
Lemma slot_split ds idx : length ds = NDIM -> gather po ds = gather po dims -> gather pi ds = gather pi dims ->
  valid_index ds idx ->
  exists o t, o < outer /\ t < inner /\
    slotn ds idx = (o * nth r ds 0 + Z.to_nat (nth r idx 0%Z)) * inner + t /\
    o = lin (gather po dims) (gather po (map Z.to_nat idx)) /\
    t = lin (gather pi dims) (gather pi (map Z.to_nat idx)).
Proof.
  intros Ld Go Gi Vi. destruct (valid_to_nat Vi) as [F _].
  exists (lin (gather po dims) (gather po (map Z.to_nat idx))), (lin (gather pi dims) (gather pi (map Z.to_nat idx))).
  assert (FF : Forall2 lt (gather perm (map Z.to_nat idx)) (gather perm ds)) by (apply gather_lt; auto; apply Pd; auto).
  rewrite E in FF. unfold gather in FF. rewrite !map_app in FF.
  apply Forall2_app_inv_l in FF. destruct FF as (d1 & d2 & F1 & F2 & Ed).
  assert (d1 = gather po ds /\ d2 = gather (r :: pi) ds) as [-> ->].
  { apply app_inj_length in Ed. destruct Ed; split; [symmetry|symmetry]; auto.
    rewrite map_length, <- (Forall2_len F1), map_length. auto. }
  rewrite Go in F1. simpl in F2. inversion F2 as [|? ? ? ? Hlt F3]; subst. rewrite Gi in F3.
  split; [apply lin_bound; auto|]. split; [apply lin_bound; auto|]. split; auto.
  unfold slotn. rewrite E at 1 2. unfold gather at 1 2. rewrite !map_app. cbn [map].
  rewrite lin_app by len. fold (gather po ds) (gather pi ds) (gather po (map Z.to_nat idx)) (gather pi (map Z.to_nat idx)).
  rewrite Go, Gi. f_equal. f_equal. f_equal.
  change 0 with (Z.to_nat 0) at 1. apply map_nth.
Qed.
End Split.

Lemma valid_upd dims r n idx : r < length dims -> length idx = length dims ->
  (valid_index (upd dims r n) idx <->
   (forall k, k < length dims -> k <> r -> (0 <= nth k idx 0 < Z.of_nat (nth k dims 0%nat))%Z) /\
   (0 <= nth r idx 0 < Z.of_nat n)%Z).
Proof.
  intros Hr Hl. rewrite (@valid_nth (upd dims r n) idx) by (rewrite upd_length; auto).
  rewrite upd_length. split.
  - intros H. split.
    + intros k Hk Hn. specialize (H k Hk). rewrite nth_upd_ne in H; auto.
    + specialize (H r Hr). rewrite nth_upd_eq in H; auto.
  - intros [H1 H2] k Hk. destruct (Nat.eq_dec k r) as [->|Hn].
    + rewrite nth_upd_eq; auto.
    + rewrite nth_upd_ne; auto.
Qed.

Lemma holds_split b vs m : holds b vs -> length vs + m <= length b ->
  mem triv b (map (@LV V) vs ++ repeat LN m ++ repeat LN (length b - (length vs + m))).
Proof.
  intros H Hm. eapply mem_cast; [apply holds_mem; exact H|]. rewrite <- repeat_app_add. f_equal. f_equal. lia.
Qed.


(** resizeDefaultDimension: the flat contents are re-laid out block by block. *)
Lemma rdd_ok a vs n v po pi :
  arr_ok a vs -> perm = po ++ a_rix a :: pi -> ~ In (a_rix a) po -> ~ In (a_rix a) pi ->
  can_grow kind (a_buf a) (prod (upd (a_dims a) (a_rix a) n)) ->
  oks (resizeDefaultDimension chk triv kind perm a (Z.of_nat n) v)
      (fun a' => a_dims a' = upd (a_dims a) (a_rix a) n /\ a_rix a' = a_rix a /\
         arr_ok a' (relayout (prod (gather po (a_dims a)))
                      (nth (a_rix a) (a_dims a) 0 * prod (gather pi (a_dims a)))
                      (n * prod (gather pi (a_dims a))) vs v) /\
         length (a_buf a') = Nat.max (length (a_buf a)) (prod (upd (a_dims a) (a_rix a) n))).
Proof.
  intros A E N1 N2 G. pose proof (size_ok A) as ES. pose proof A as A'.
  destruct A as (L & S & R & LV & H).
  set (r := a_rix a) in *. set (dims := a_dims a) in *.
  pose proof (split_prod E L) as SP. fold dims in SP.
  pose proof (split_prod_upd n E N1 N2 L R) as SU.
  pose proof (split_stride E L) as SS.
  set (outer := prod (gather po dims)) in *. set (inner := prod (gather pi dims)) in *.
  set (cur := nth r dims 0) in *.
  assert (LVS : length vs = outer * (cur * inner)) by lia.
  unfold resizeDefaultDimension. cbv zeta. fold r dims. fold cur.
  rewrite error_if_ok by lia. cbn [bind]. rewrite Nat2Z.id, ES, !multiplyAll_prod.
  assert (FIN : forall b ws, holds b ws -> length ws = prod (upd dims r n) ->
    arr_ok (set_shape perm a (upd dims r n) b) ws).
  { intros b ws Hb Hl. unfold arr_ok, set_shape. cbn. rewrite upd_length. repeat split; auto. }
  assert (RL : length (relayout outer (cur * inner) (n * inner) vs v) = prod (upd dims r n)).
  { rewrite relayout_length, SU. auto. }
  destruct ((NDIM =? 1) || (nth 0 perm 0 =? r)) eqn:Simple.
  - (* the slowest dimension *)
    assert (po = []).
    { destruct po as [|p po']; auto. exfalso. apply orb_true_iff in Simple. destruct Simple as [X|X].
      - apply Nat.eqb_eq in X. rewrite E in X. simpl in X. rewrite app_length in X. simpl in X. lia.
      - apply Nat.eqb_eq in X. rewrite E in X. simpl in X. apply N1. simpl. auto. }
    subst po. change outer with 1 in *.
    eapply oks_bind; [apply resize_ok; eauto|]. intros b [Hb Lb]. apply oks_ok.
    split; [reflexivity|]. split; [reflexivity|]. split; [|exact Lb]. apply FIN; auto.
    rewrite relayout_one by lia. rewrite SU, Nat.mul_1_l in Hb. exact Hb.
  - destruct (Nat.eqb_spec (prod (upd dims r n)) (length vs)) as [Heq | Hne].
    + apply oks_ok. split; [reflexivity|]. split; [reflexivity|]. split.
      * apply FIN; auto. cbn.
        destruct (Nat.eq_dec n cur) as [->|Hd].
        -- rewrite relayout_same; auto.
        -- assert (length vs = 0) by nia. destruct vs; [|discriminate].
           destruct (relayout outer (cur * inner) (n * inner) [] v) eqn:X; auto. simpl in RL. lia.
      * cbn. apply holds_cap in H. lia.
    + rewrite S, SS.
      destruct (Nat.ltb_spec cur n) as [Hlt | Hge].
      * assert (inner <> 0) by nia. assert (outer <> 0) by nia.
        eapply oks_bind; [apply reserve_ok; eauto|]. intros b [Hb Lb].
        assert (IT : (prod (upd dims r n) - length vs) / (inner * (n - cur)) = outer).
        { replace (prod (upd dims r n) - length vs) with (outer * (inner * (n - cur))) by nia.
          apply Nat.div_mul. nia. }
        rewrite IT.
        eapply oks_bind.
        -- apply (@grow_loop_ok V chk triv b vs outer (inner * cur) (inner * (n - cur)) v
                   (length b - (length vs + inner * (n - cur) * outer))); [lia|].
           apply holds_split; auto. rewrite Lb. nia.
        -- intros b' M. apply oks_ok. split; [reflexivity|]. split; [reflexivity|].
           replace (inner * cur) with (cur * inner) in M by lia.
           replace (cur * inner + inner * (n - cur)) with (n * inner) in M by nia.
           split; [apply FIN; auto; eexists; exact M|].
           apply mem_length in M. cbn. rewrite M. rewrite !app_length, map_length, !repeat_length, RL. nia.
      * assert (n < cur) by (destruct (Nat.eq_dec n cur) as [X|X]; [exfalso; apply Hne; rewrite SU, LVS, X; reflexivity|lia]). assert (inner <> 0) by nia. assert (outer <> 0) by nia.
        assert (IT : (length vs - prod (upd dims r n)) / (inner * (cur - n)) = outer).
        { replace (length vs - prod (upd dims r n)) with (outer * (inner * (cur - n))) by nia.
          apply Nat.div_mul. nia. }
        rewrite IT.
        pose proof (@shrink_loop_ok V chk triv (a_buf a) vs outer (cur * inner) (n * inner)
                   (length (a_buf a) - length vs) LVS ltac:(nia) ltac:(lia) (holds_mem H)) as SL.
        replace (cur * inner - n * inner) with (inner * (cur - n)) in SL by nia.
        destruct SL as (b' & EQ & M).
        unfold ArrayManip.destroy in EQ.
        replace (inner * n) with (n * inner) by lia.
        rewrite SU.
        match goal with |- oks (bind ?m _) _ => destruct m as [b1| |f] eqn:EM end;
          cbn [bind] in EQ; try discriminate EQ. cbn [bind]. rewrite EQ. cbn [bind]. apply oks_ok. 
        split; [reflexivity|]. split; [reflexivity|].
        split; [apply FIN; auto; eexists; apply M|].
        specialize (M v). apply mem_length in M. cbn. rewrite M. rewrite !app_length, map_length, !repeat_length, RL.
        pose proof (holds_cap H). nia.
Qed.

(** Element by element. *)
Lemma rdd_values a vs n v a' :
  arr_ok a vs -> can_grow kind (a_buf a) (prod (upd (a_dims a) (a_rix a) n)) ->
  resizeDefaultDimension chk triv kind perm a (Z.of_nat n) v = Ok a' ->
  (exists vs', arr_ok a' vs') /\ a_dims a' = upd (a_dims a) (a_rix a) n /\ a_rix a' = a_rix a /\
  (forall idx, valid_index (a_dims a') idx -> valid_index (a_dims a) idx ->
     exists x, at_ chk perm a idx = Ok x /\ at_ chk perm a' idx = Ok x) /\
  (forall idx, valid_index (a_dims a') idx -> ~ valid_index (a_dims a) idx -> at_ chk perm a' idx = Ok v).
Proof.
  intros A G EQ. pose proof A as (L & S & R & LV & H).
  destruct (perm_split R) as (po & pi & E & N1 & N2).
  destruct (rdd_ok v A E N1 N2 G) as (a2 & EQ2 & D & RX & A2 & _).
  rewrite EQ in EQ2. injection EQ2 as <-.
  split; [eexists; exact A2|]. split; [exact D|]. split; [exact RX|].
  pose proof A2 as (L2 & _ & _ & LV2 & _).
  set (outer := prod (gather po (a_dims a))) in *. set (inner := prod (gather pi (a_dims a))) in *.
  set (cur := nth (a_rix a) (a_dims a) 0) in *.
  assert (LVS : length vs = outer * (cur * inner)).
  { rewrite LV. apply split_prod with (pi := pi) (r := a_rix a); auto. }
  assert (Go : gather po (a_dims a') = gather po (a_dims a)) by (rewrite D; apply gather_upd_out; auto).
  assert (Gi : gather pi (a_dims a') = gather pi (a_dims a)) by (rewrite D; apply gather_upd_out; auto).
  assert (Dn : nth (a_rix a) (a_dims a') 0 = n) by (rewrite D; apply nth_upd_eq; lia).
  assert (SLOT : forall idx, valid_index (a_dims a') idx ->
    exists o t, o < outer /\ t < inner /\ slotn (a_dims a') idx = o * (n * inner) + (Z.to_nat (nth (a_rix a) idx 0%Z) * inner + t)
      /\ (Z.to_nat (nth (a_rix a) idx 0%Z) < n) /\
      (valid_index (a_dims a) idx -> Z.to_nat (nth (a_rix a) idx 0%Z) < cur /\
         slotn (a_dims a) idx = o * (cur * inner) + (Z.to_nat (nth (a_rix a) idx 0%Z) * inner + t)) /\
      (~ valid_index (a_dims a) idx -> cur <= Z.to_nat (nth (a_rix a) idx 0%Z))).
  { intros idx Vi. destruct (@slot_split po pi (a_rix a) (a_dims a) E L R (a_dims a') idx) as (o & t & Ho & Ht & Es & Eo & Et); auto.
    exists o, t. rewrite Dn in Es. fold inner in Es. split; auto. split; auto. split; [nia|].
    assert (Li : length idx = length (a_dims a)) by (rewrite (valid_len Vi); lia).
    pose proof Vi as Vi'. rewrite D in Vi'. apply valid_upd in Vi'; [|lia|auto]. destruct Vi' as [W1 W2].
    split; [lia|]. split.
    - intros Va. destruct (@slot_split po pi (a_rix a) (a_dims a) E L R (a_dims a) idx) as (o' & t' & _ & _ & Es' & Eo' & Et'); auto.
      subst o' t' o t. fold cur in Es'. fold inner in Es'. split; [|nia].
      apply (proj1 (valid_nth Li)) with (k := a_rix a) in Va; [fold cur in Va; lia|lia].
    - intros Nv. destruct (Nat.lt_ge_cases (Z.to_nat (nth (a_rix a) idx 0%Z)) cur) as [X|X]; auto. exfalso. apply Nv.
      apply (proj2 (valid_nth Li)). intros k Hk. destruct (Nat.eq_dec k (a_rix a)) as [->|Hn]; [fold cur; lia|auto]. }
  split.
  - intros idx Vi Va. destruct (at_ok A Va) as (x & Nx & Ax). exists x. split; auto.
    destruct (at_ok A2 Vi) as (y & Ny & Ay). rewrite Ay. f_equal.
    destruct (SLOT idx Vi) as (o & t & Ho & Ht & Es & Hn & Hv & _). destruct (Hv Va) as [Hc Es'].
    rewrite Es, nth_relayout in Ny by (auto; nia).
    destruct (Nat.ltb_spec (Z.to_nat (nth (a_rix a) idx 0%Z) * inner + t) (cur * inner)); [|nia].
    rewrite Es' in Nx. congruence.
  - intros idx Vi Va. destruct (at_ok A2 Vi) as (y & Ny & Ay). rewrite Ay. f_equal.
    destruct (SLOT idx Vi) as (o & t & Ho & Ht & Es & Hn & _ & Hv). specialize (Hv Va).
    rewrite Es, nth_relayout in Ny by (auto; nia).
    destruct (Nat.ltb_spec (Z.to_nat (nth (a_rix a) idx 0%Z) * inner + t) (cur * inner)); [nia|].
    congruence.
Qed.
End Arr.
