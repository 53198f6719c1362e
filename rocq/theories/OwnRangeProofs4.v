(** Array::insert of a range of the array's own elements. *)
From Coq Require Import List Arith ZArith Lia Bool.
From Verif Require Import Base BaseProofs Mem MemProofs ArrayManipProofs BufferManipProofs Array ArrayProofs ArrayProofs3.
From Verif Require Import OwnRange OwnRangeProofs.
From Verif Require ArrayManip BufferManip.
Import ListNotations.
Set Implicit Arguments.
Unset Strict Implicit.

Notation sub r l n := (firstn n (skipn l r)).

(** The values [w] repeated until there are [n] of them. *)
Fixpoint cyc {V} (n : nat) (w : list V) : list V :=
  match n, w with
  | S n', v :: w' => v :: cyc n' (w' ++ [v])
  | _, _ => []
  end.

Section Own.
Variable V : Type.
Variable chk triv : bool.
Notation kind := BufferManip.BMalloc.
Notation buf := (buf V).
Notation holds := (@holds V triv).
Notation arr_ok := (@arr_ok V triv [0]).
Notation LVs := (map (@LV V)).

Lemma rd_none (b : buf) l i : triv = false -> mem triv b l -> nth_error l i = Some LN -> rd b i = Fault FRead.
Proof.
  intros T M. revert i. induction M as [|c y l1 l2 Hc M IH]; intros [|i] N; try discriminate.
  - injection N as ->. destruct Hc as [T'|Hc]; [congruence|]. subst c. reflexivity.
  - exact (IH i N).
Qed.
Lemma cyc_length n (w : list V) : w <> [] -> length (cyc n w) = n.
Proof.
  revert w. induction n as [|n IH]; intros [|v w] H; cbn; auto; [congruence|]. rewrite IH; auto. destruct w; discriminate.
Qed.
Lemma cyc_nth n (w : list V) x : x < n -> nth_error (cyc n w) x = nth_error w (x mod length w).
Proof.
  revert w x. induction n as [|n IH]; intros [|v w] x H; try lia; [destruct x; cbn; auto; destruct n; auto; destruct x; auto|].
  destruct x as [|x].
  - rewrite Nat.mod_0_l by (cbn; lia). reflexivity.
  - cbn [cyc nth_error]. rewrite IH by lia. rewrite app_length. cbn [length]. set (d := length w).
    replace (d + 1) with (S d) by lia.
    pose proof (Nat.mod_upper_bound x (S d) ltac:(lia)) as Hm. pose proof (Nat.div_mod x (S d) ltac:(lia)) as E.
    set (m := x mod S d) in *. set (k := x / S d) in *.
    destruct (Nat.eq_dec m d) as [Em|Nm].
    + replace (S x mod S d) with 0.
      * rewrite Em. unfold d. rewrite nth_error_app2, Nat.sub_diag by lia. reflexivity.
      * symmetry. replace (S x) with ((k + 1) * S d) by nia. apply Nat.mod_mul. lia.
    + replace (S x mod S d) with (S m).
      * change (nth_error (v :: w) (S m)) with (nth_error w m). apply nth_error_app1. fold d. lia.
      * symmetry. replace (S x) with (S m + k * S d) by nia. rewrite Nat.mod_add by lia. apply Nat.mod_small. lia.
Qed.
Lemma construct_rd (b b' : buf) p v : construct triv b p v = Ok b' -> rd b' p = Ok v.
Proof.
  unfold construct, place. intros E. unfold aget in E. destruct (nth_error b p) as [c|] eqn:Ec; cbn [bind] in E; [|discriminate].
  assert (Hp : p < length b) by (apply nth_error_Some; congruence).
  assert (G : aset b p (Obj v) = Ok b' -> rd b' p = Ok v).
  { unfold aset. destruct (Nat.ltb_spec p (length b)); [|lia]. intros [= <-]. unfold rd, aget.
    rewrite nth_error_upd_eq by exact Hp. reflexivity. }
  destruct c; [auto|destruct triv; [auto|discriminate]|auto].
Qed.
Lemma copyOwn_cyc n : forall (b : buf) q w, w <> [] -> reads b q w ->
  copyOwn triv n b q (q + length w) = ArrayManip.uninitializedCopy triv (cyc n w) b (q + length w).
Proof.
  induction n as [|n IH]; intros b q w Nw R; [destruct w; reflexivity|].
  destruct w as [|v w]; [congruence|]. cbn [copyOwn cyc ArrayManip.uninitializedCopy].
  pose proof (R 0 v eq_refl) as R0. rewrite Nat.add_0_r in R0. rewrite R0. cbn [bind].
  destruct (construct triv b (q + length (v :: w)) v) as [b'| |] eqn:E; cbn [bind]; auto.
  replace (q + length (v :: w) + 1) with (q + 1 + length (w ++ [v])) by (rewrite app_length; cbn; lia).
  apply IH; [destruct w; discriminate|]. intros x u Hx.
  destruct (Nat.eq_dec x (length w)) as [->|Nx].
  - rewrite nth_error_app2, Nat.sub_diag in Hx by lia. injection Hx as <-.
    replace (q + 1 + length w) with (q + length (v :: w)) by (cbn; lia). exact (construct_rd E).
  - assert (x < length (w ++ [v])) by (apply nth_error_Some; congruence). rewrite app_length in H. cbn in H.
    rewrite nth_error_app1 in Hx by lia. replace (q + 1 + x) with (q + S x) by lia.
    rewrite (@rd_nth_eq V b b'); [exact (R (S x) u Hx)|]. eapply construct_nth; [exact E|]. cbn. lia.
Qed.

(** What insert reads once the elements from [length xs] on were shifted up. *)
Lemma holds_room (b : buf) xs ys n : holds b (xs ++ ys) -> length (xs ++ ys) + n <= length b ->
  oks (ArrayManip.shiftUp chk triv b 0 (length (xs ++ ys)) (length xs) n) (fun b1 => exists k, mem triv b1 (LVs xs ++ repeat LN n ++ LVs ys ++ repeat LN k)).
Proof.
  intros [k M] C. pose proof (mem_length M) as EL. rewrite app_length, map_length, repeat_length in EL.
  eapply oks_mono; [eapply (@shiftUp_ok V chk triv _ [] xs ys n (repeat LN (k - n))); cbn; auto|].
  - eapply mem_cast; [exact M|]. rewrite map_app, <- app_assoc, <- repeat_app. do 3 f_equal. lia.
  - rewrite app_length. reflexivity.
  - intros b' Hb. exists (k - n). exact Hb.
Qed.
Lemma nth_xs (b : buf) xs n ys k x v : mem triv b (LVs xs ++ repeat LN n ++ LVs ys ++ repeat LN k) -> nth_error xs x = Some v -> rd b x = Ok v.
Proof.
  intros M N. assert (x < length xs) by (apply nth_error_Some; congruence). eapply rd_nth; [exact M|].
  rewrite nth_error_app1 by (rewrite map_length; lia). apply map_nth_error. exact N.
Qed.
Lemma nth_ys (b : buf) xs n ys k x v : mem triv b (LVs xs ++ repeat LN n ++ LVs ys ++ repeat LN k) -> nth_error ys x = Some v -> rd b (length xs + n + x) = Ok v.
Proof.
  intros M N. assert (x < length ys) by (apply nth_error_Some; congruence). eapply rd_nth; [exact M|].
  rewrite nth_error_app2 by (rewrite map_length; lia). rewrite map_length.
  rewrite nth_error_app2 by (rewrite repeat_length; lia). rewrite repeat_length.
  replace (length xs + n + x - length xs - n) with x by lia.
  rewrite nth_error_app1 by (rewrite map_length; lia). apply map_nth_error. exact N.
Qed.
Lemma nth_sub (r : list V) l n x : nth_error (sub r l n) x = if x <? n then nth_error r (l + x) else None.
Proof.
  destruct (Nat.ltb_spec x n) as [H|H].
  - rewrite nth_error_firstn' by exact H. apply nth_error_skipn'.
  - apply nth_error_None. rewrite firstn_length. lia.
Qed.
(** The values the call inserts; [None] when it reads an element which is not there. *)
Definition inserted (r : list V) (pos l n : nat) : option (list V) :=
  if l + n <=? pos then Some (sub r l n)
  else if l <? pos then Some (cyc n (sub r l (pos - l)))
  else if pos + n <=? l then Some (sub r (l - n) n)
  else None.
Lemma inserted_length r pos l n vs : pos <= length r -> l + n <= length r -> inserted r pos l n = Some vs -> length vs = n.
Proof.
  intros Hp Ln. unfold inserted. destruct (Nat.leb_spec (l + n) pos); [intros [= <-]; rewrite firstn_length, skipn_length; lia|].
  destruct (Nat.ltb_spec l pos).
  - intros [= <-]. apply cyc_length. intros E. apply (f_equal (@length V)) in E. rewrite firstn_length, skipn_length in E. cbn in E. lia.
  - destruct (Nat.leb_spec (pos + n) l); intros [= <-]. rewrite firstn_length, skipn_length. lia.
Qed.
Lemma insertOwn_any (b : buf) xs ys l n : holds b (xs ++ ys) -> length (xs ++ ys) + n <= length b -> l + n <= length (xs ++ ys) ->
  match inserted (xs ++ ys) (length xs) l n with
  | Some vs => insertOwn chk triv b 0 (length (xs ++ ys)) (length xs) l n = ArrayManip.insert chk triv b 0 (length (xs ++ ys)) (length xs) vs
  | None => triv = false -> insertOwn chk triv b 0 (length (xs ++ ys)) (length xs) l n = Fault FRead
  end.
Proof.
  intros H C Ln. destruct (holds_room H C) as (b1 & E1 & k & M).
  assert (CI : ArrayManip.check_insert_bounds chk (length (xs ++ ys)) (length xs) = Ok tt).
  { unfold ArrayManip.check_insert_bounds. apply check_if_ok. apply Nat.ltb_ge. rewrite app_length. lia. }
  assert (Lv : forall vs, inserted (xs ++ ys) (length xs) l n = Some vs -> length vs = n).
  { intros vs. apply inserted_length; [rewrite app_length; lia|exact Ln]. }
  destruct (inserted (xs ++ ys) (length xs) l n) as [vs|] eqn:Ei.
  - unfold insertOwn, ArrayManip.insert. rewrite CI. cbn [bind]. rewrite (Lv vs eq_refl), E1. cbn [bind plus].
    specialize (Lv vs eq_refl). unfold inserted in Ei.
    destruct (Nat.leb_spec (l + n) (length xs)) as [Hp|Hp].
    + injection Ei as <-. rewrite <- Lv at 1. apply copyOwn_copy; [|unfold apart; lia].
      intros x v Hx. rewrite nth_sub in Hx. destruct (Nat.ltb_spec x n); [|discriminate].
      rewrite nth_error_app1 in Hx by lia. eapply nth_xs; eauto.
    + destruct (Nat.ltb_spec l (length xs)) as [Hl|Hl].
      * injection Ei as <-. set (w := sub (xs ++ ys) l (length xs - l)).
        assert (Lw : length w = length xs - l) by (unfold w; rewrite firstn_length, skipn_length, app_length; lia).
        replace (length xs) with (l + length w) at 1 by lia. replace (length xs) with (l + length w) by lia.
        rewrite copyOwn_cyc; [reflexivity| |].
        -- intros Ew. rewrite Ew in Lw. cbn in Lw. lia.
        -- intros x v Hx. unfold w in Hx. rewrite nth_sub in Hx. destruct (Nat.ltb_spec x (length xs - l)); [|discriminate].
           rewrite nth_error_app1 in Hx by lia. eapply nth_xs; eauto.
      * destruct (Nat.leb_spec (length xs + n) l) as [Hg|]; [|discriminate]. injection Ei as <-.
        rewrite <- Lv at 1. apply copyOwn_copy; [|unfold apart; lia].
        intros x v Hx. rewrite nth_sub in Hx. destruct (Nat.ltb_spec x n); [|discriminate].
        rewrite nth_error_app2 in Hx by lia. replace (l + x) with (length xs + n + (l - n + x - length xs)) by lia. eapply nth_ys; eauto.
  - intros T. unfold insertOwn. rewrite CI. cbn [bind]. rewrite E1. cbn [bind plus]. unfold inserted in Ei.
    destruct (Nat.leb_spec (l + n) (length xs)); [discriminate|]. destruct (Nat.ltb_spec l (length xs)); [discriminate|].
    destruct (Nat.leb_spec (length xs + n) l); [discriminate|].
    destruct n as [|n]; [lia|]. cbn [copyOwn]. rewrite (@rd_none b1 _ l T M); [reflexivity|].
    rewrite nth_error_app2 by (rewrite map_length; lia). rewrite map_length.
    rewrite nth_error_app1 by (rewrite repeat_length; lia). apply nth_error_repeat. lia.
Qed.
Lemma insertOwn_eq (a : array V) xs ys l n : arr_ok a (xs ++ ys) -> length (xs ++ ys) + n <= capacity a -> l + n <= length (xs ++ ys) ->
  match inserted (xs ++ ys) (length xs) l n with
  | Some vs => array_insertOwn chk triv kind a (Z.of_nat (length xs)) l n = Array.insert chk triv kind a (Z.of_nat (length xs)) vs
  | None => triv = false -> array_insertOwn chk triv kind a (Z.of_nat (length xs)) l n = Fault FRead
  end.
Proof.
  intros A C Ln. pose proof A as (_ & _ & _ & _ & H). pose proof (size_ok A) as SZ. unfold capacity, BufferManip.capacity in C.
  pose proof (holds_cap H) as HC. pose proof (insertOwn_any H C Ln) as G.
  assert (D : BufferManip.dynamicReserve chk triv kind (a_buf a) (length (xs ++ ys)) (length (xs ++ ys) + n) = Ok (a_buf a)).
  { unfold BufferManip.dynamicReserve. rewrite check_ok by exact HC. cbn [bind]. unfold BufferManip.capacity.
    destruct (Nat.ltb_spec (length (a_buf a)) (length (xs ++ ys) + n)); [lia|reflexivity]. }
  assert (P : array_insertOwn chk triv kind a (Z.of_nat (length xs)) l n =
    b <- insertOwn chk triv (a_buf a) 0 (length (xs ++ ys)) (length xs) l n ;; Ok (set_dim0 a (nth 0 (a_dims a) 0 + n) b)).
  { unfold array_insertOwn, buffer_insertOwn. rewrite SZ. rewrite checkInsert_ok by (auto; rewrite app_length; lia). cbn [bind].
    rewrite D. cbn [bind]. rewrite to_ix_nat. cbn [bind]. unfold BufferManip.capacity.
    destruct (Nat.ltb_spec (length (a_buf a)) (length (xs ++ ys) + n)); [lia|]. rewrite andb_false_r. reflexivity. }
  rewrite P. pose proof (@inserted_length (xs ++ ys) (length xs) l n) as Lv.
  destruct (inserted (xs ++ ys) (length xs) l n) as [vs|].
  - rewrite G. unfold Array.insert, BufferManip.insert. rewrite SZ. rewrite checkInsert_ok by (auto; rewrite app_length; lia). cbn [bind].
    rewrite (Lv vs) by (auto; rewrite app_length; lia). rewrite D. cbn [bind]. rewrite to_ix_nat. cbn [bind].
    destruct (ArrayManip.insert chk triv (a_buf a) 0 (length (xs ++ ys)) (length xs) vs); reflexivity.
  - intros T. rewrite (G T). reflexivity.
Qed.
Lemma insertOwn_dangles (a : array V) xs ys l n : arr_ok a (xs ++ ys) -> capacity a < length (xs ++ ys) + n -> 0 < n ->
  array_insertOwn chk triv kind a (Z.of_nat (length xs)) l n = Fault FDangling.
Proof.
  intros A C Hn. pose proof A as (_ & _ & _ & _ & H). pose proof (size_ok A) as SZ. unfold capacity in C.
  unfold array_insertOwn, buffer_insertOwn. rewrite SZ. rewrite checkInsert_ok by (try exact (holds_cap H); rewrite app_length; lia). cbn [bind].
  destruct (@dynamicReserve_ok V chk triv kind (a_buf a) (xs ++ ys) (length (xs ++ ys) + n) H) as (b1 & E1 & _); [left; reflexivity|].
  rewrite E1. cbn [bind]. rewrite to_ix_nat. cbn [bind].
  destruct (Nat.ltb_spec 0 n); [|lia]. destruct (Nat.ltb_spec (BufferManip.capacity (a_buf a)) (length (xs ++ ys) + n)); [|lia]. reflexivity.
Qed.
End Own.
