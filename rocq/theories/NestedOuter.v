(** The outer buffer of a nested array. *)
From Coq Require Import List Arith Lia Bool.
From Verif Require Import Base BaseProofs Chai ChaiSpec ChaiProofs Nested NestedSpec NestedFrame NestedInner.
Import ListNotations.
Set Implicit Arguments.
Unset Strict Implicit.

Notation world := (world cbuf).
Notation cells := (list (option cbuf)).

(** An allocated outer buffer: [dh], [dd] are the contents of its host and device blocks [bh], [pd]. *)
Definition OInv (cap cur : nat) (od : bool) (g bh : nat) (pd : option nat) (dh : cells) (dd : option cells) (w : world) : Prop :=
  nth_error (w_recs w) g = Some (Some (mkRec cap [Some bh; pd] [((cur =? 0) && od)%bool; ((cur =? 1) && od)%bool] (Some cur))) /\
  length (w_recs w) = S g /\
  nth_error (w_blocks w) bh = Some (Some (mkBlock 0 dh)) /\ length dh = cap /\
  match pd, dd with
  | None, None => cur = 0 /\ od = true
  | Some bd, Some d => bd <> bh /\ nth_error (w_blocks w) bd = Some (Some (mkBlock 1 d)) /\ length d = cap
  | _, _ => False
  end /\ cur < 2 /\ 0 < cap.
(** Before the first allocation *)
Definition OInit (w : world) : Prop :=
  w_recs w = [Some (mkRec 0 [None; None] [false; false] None)].

Definition whole (cap g : nat) (c : cbuf) : Prop := c_rec c = Some g /\ c_cap c = cap /\ c_const c = false.

Lemma o_read0 cap cur od g bh pd dh dd w h c i x : OInv cap cur od g bh pd dh dd w -> nth_error (w_bufs w) h = Some c -> c_ptr c = Some bh ->
  nth_error dh i = Some (Some x) -> chai_read w h i 0 = Ok x.
Proof.
  intros (H1 & H2 & H3 & _) Hc Hp Hx. unfold chai_read. rewrite (aget_some Hc). cbn [bind]. rewrite Hp. cbn [nonnull bind]. rewrite (live_some H3). cbn [bind k_space k_data Nat.eqb].
  rewrite (aget_some Hx). reflexivity.
Qed.
Lemma o_read1 cap cur od g bh bd dh d w h c i x : OInv cap cur od g bh (Some bd) dh (Some d) w -> nth_error (w_bufs w) h = Some c -> c_ptr c = Some bd ->
  nth_error d i = Some (Some x) -> chai_read w h i 1 = Ok x.
Proof.
  intros (H1 & H2 & H3 & H4 & (_ & H5 & _) & _) Hc Hp Hx. unfold chai_read. rewrite (aget_some Hc). cbn [bind]. rewrite Hp. cbn [nonnull bind]. rewrite (live_some H5). cbn [bind k_space k_data Nat.eqb].
  rewrite (aget_some Hx). reflexivity.
Qed.
Lemma o_write0 cap cur od g bh pd dh dd w h c i x : OInv cap cur od g bh pd dh dd w -> nth_error (w_bufs w) h = Some c -> c_ptr c = Some bh ->
  i < cap -> exists w', chai_write w h i 0 x = Ok w' /\ w_bufs w' = w_bufs w /\ OInv cap cur od g bh pd (upd dh i (Some x)) dd w'.
Proof.
  intros (H1 & H2 & H3 & H4 & H5 & H6) Hc Hp Hi. unfold chai_write. rewrite (aget_some Hc). cbn [bind]. rewrite Hp. cbn [nonnull bind]. rewrite (live_some H3). cbn [bind k_space k_data Nat.eqb].
  rewrite aset_ok by lia. cbn [bind]. rewrite (aset_some _ H3). cbn [bind]. eexists. split; [reflexivity|]. split; [reflexivity|].
  pose proof (nth_lt H3) as Lb. repeat split; cbn [w_recs w_blocks]; try assumption.
  - rewrite nth_upd by exact Lb. rewrite Nat.eqb_refl. reflexivity.
  - rewrite upd_length. exact H4.
  - destruct pd as [bd|], dd as [d|]; try exact H5. destruct H5 as (N & Q1 & Q2). repeat split; try assumption. rewrite nth_error_upd_ne by auto. exact Q1.
  - apply H6.
  - apply H6.
Qed.

Ltac aok := repeat first [rewrite aset_ok by (cbn [length]; lia) | rewrite aget_last | progress cbn [bind aget nth_error nonnull aset length Nat.ltb Nat.leb upd]].

Lemma o_move_same cap cur od g bh pd dh dd w h c touch : OInv cap cur od g bh pd dh dd w -> nth_error (w_bufs w) h = Some c -> whole cap g c ->
  exists w', chai_move 2 w h (Some cur) touch = Ok w' /\
    w_bufs w' = upd (w_bufs w) h (mkBuf (if cur =? 0 then Some bh else pd) cap (Some g) false) /\ OInv cap cur (od || touch) g bh pd dh dd w'.
Proof.
  intros (H1 & H2 & H3 & H4 & H5 & H6 & H7) Hc (W1 & W2 & W3). unfold chai_move. rewrite (aget_some Hc). cbn [bind]. rewrite W1, W2, W3.
  assert (E0 : (cap =? 0) = false) by (apply Nat.eqb_neq; lia). rewrite E0.
  unfold manager_move. rewrite (live_some H1). cbn [bind nonnull r_last r_ptrs]. rewrite Nat.eqb_refl.
  assert (Eg : exists b, nth_error [Some bh; pd] cur = Some (Some b) /\ (if cur =? 0 then Some bh else pd) = Some b).
  { destruct cur as [|[|]]; [exists bh; auto| |lia]. destruct pd as [bd|], dd as [d|]; try (destruct H5; lia). exists bd. auto. }
  destruct Eg as (b & Eb & Eb'). rewrite (aget_some Eb). cbn [bind nonnull]. rewrite (live_some H1). cbn [bind r_touched r_ptrs r_size].
  set (ts := [((cur =? 0) && od)%bool; ((cur =? 1) && od)%bool]).
  assert (Et : (if (negb false && touch)%bool then aset ts cur true else Ok ts) = Ok [((cur =? 0) && (od || touch))%bool; ((cur =? 1) && (od || touch))%bool]).
  { unfold ts. destruct cur as [|[|]]; [| |lia]; destruct touch, od; reflexivity. }
  rewrite Et. cbn [bind]. rewrite (aset_some _ H1). cbn [bind]. unfold set_buf. cbn [w_bufs w_blocks w_recs]. rewrite (aset_some _ Hc). cbn [bind].
  eexists. split; [reflexivity|]. cbn [w_bufs]. rewrite Eb'. split; [reflexivity|]. pose proof (nth_lt H1) as Lg.
  split; [cbn [w_recs]; rewrite nth_upd by exact Lg; rewrite Nat.eqb_refl; reflexivity|]. split; [cbn [w_recs]; rewrite upd_length; exact H2|].
  split; [exact H3|]. split; [exact H4|]. split; [|auto]. destruct pd as [bd|], dd as [d|]; try exact H5. destruct H5 as [-> ->]. auto.
Qed.

Lemma o_move_01 cap od g bh pd dh dd w h c touch : OInv cap 0 od g bh pd dh dd w -> nth_error (w_bufs w) h = Some c -> whole cap g c ->
  exists w' bd d, chai_move 2 w h (Some 1) touch = Ok w' /\ w_bufs w' = upd (w_bufs w) h (mkBuf (Some bd) cap (Some g) false) /\
    OInv cap 1 touch g bh (Some bd) dh (Some d) w' /\ (pd = None \/ pd = Some bd) /\ (if od then d = dh else dd = Some d).
Proof.
  intros (H1 & H2 & H3 & H4 & H5 & H6 & H7) Hc (W1 & W2 & W3). unfold chai_move. rewrite (aget_some Hc). cbn [bind]. rewrite W1, W2, W3.
  assert (E0 : (cap =? 0) = false) by (apply Nat.eqb_neq; lia). rewrite E0.
  unfold manager_move. rewrite (live_some H1). cbn [bind nonnull r_last r_ptrs Nat.eqb aget nth_error].
  pose proof (nth_lt H1) as Lg. pose proof (nth_lt H3) as Lb.
  destruct pd as [bd|], dd as [d|]; try contradiction.
  - destruct H5 as (N & Q1 & Q2). cbn [bind]. rewrite (live_some H1). cbn [bind r_touched r_ptrs r_size r_last aget nth_error nonnull Nat.eqb andb].
    pose proof (nth_lt Q1) as Ld. destruct od.
    + rewrite (live_some H3), (live_some Q1). cbn [bind k_space k_data]. rewrite (aset_some _ Q1). cbn [bind]. rewrite (aset_some _ H1). cbn [bind w_recs].
      assert (H1' : forall x, nth_error (upd (w_recs w) g x) g = Some x) by (intros x; rewrite nth_upd by exact Lg; rewrite Nat.eqb_refl; reflexivity).
      rewrite (live_some (H1' _)). cbn [bind r_touched r_ptrs r_size].
      assert (Et : (if (negb false && touch)%bool then aset (repeat false 2) 1 true else Ok (repeat false 2)) = Ok [false; touch]) by (destruct touch; reflexivity).
      rewrite Et. cbn [bind]. rewrite aset_ok by (rewrite upd_length; exact Lg). cbn [bind w_blocks w_bufs]. unfold set_buf. cbn [w_bufs w_blocks w_recs]. rewrite (aset_some _ Hc). cbn [bind].
      eexists _, bd, dh. split; [reflexivity|]. split; [reflexivity|]. split; [|auto]. rewrite upd_upd.
      split; [cbn [w_recs]; rewrite H1'; reflexivity|]. cbn [w_recs w_blocks]. split; [rewrite upd_length; exact H2|]. split; [rewrite nth_error_upd_ne by exact N; exact H3|].
      split; [exact H4|]. split; [|split; [lia|exact H7]]. split; [exact N|]. split; [rewrite nth_upd by exact Ld; rewrite Nat.eqb_refl; reflexivity|exact H4].
    + cbn [bind]. rewrite (live_some H1). cbn [bind r_touched r_ptrs r_size Nat.eqb andb].
      assert (Et : (if (negb false && touch)%bool then aset [false; false] 1 true else Ok [false; false]) = Ok [false; touch]) by (destruct touch; reflexivity).
      rewrite Et. cbn [bind]. rewrite (aset_some _ H1). cbn [bind]. unfold set_buf. cbn [w_bufs w_blocks w_recs]. rewrite (aset_some _ Hc). cbn [bind].
      eexists _, bd, d. split; [reflexivity|]. split; [reflexivity|]. split; [|auto].
      split; [cbn [w_recs]; rewrite nth_upd by exact Lg; rewrite Nat.eqb_refl; reflexivity|]. cbn [w_recs w_blocks]. split; [rewrite upd_length; exact H2|]. split; [exact H3|].
      split; [exact H4|]. split; [auto|split; [lia|exact H7]].
  - destruct H5 as [_ ->]. unfold manager_allocate. rewrite (live_some H1). cbn [bind r_ptrs r_size r_touched r_last aset length Nat.ltb Nat.leb upd Nat.eqb andb].
    rewrite (aset_some _ H1). cbn [bind w_recs w_blocks w_bufs].
    assert (H1' : forall x, nth_error (upd (w_recs w) g x) g = Some x) by (intros x; rewrite nth_upd by exact Lg; rewrite Nat.eqb_refl; reflexivity).
    rewrite (live_some (H1' _)). cbn [bind r_touched r_ptrs r_size r_last aget nth_error nonnull].
    assert (B1 : nth_error (w_blocks w ++ [Some (mkBlock 1 (repeat (@None cbuf) cap))]) bh = Some (Some (mkBlock 0 dh))) by (rewrite nth_app_lt by exact Lb; exact H3).
    assert (B2 : nth_error (w_blocks w ++ [Some (mkBlock 1 (repeat (@None cbuf) cap))]) (length (w_blocks w)) = Some (Some (mkBlock 1 (repeat None cap)))) by apply nth_app_last.
    rewrite (live_some B1). cbn [bind]. rewrite (live_some B2). cbn [bind k_space k_data]. rewrite (aset_some _ B2). cbn [bind].
    rewrite aset_ok by (rewrite upd_length; exact Lg). cbn [bind w_recs w_blocks w_bufs]. rewrite upd_upd. rewrite (live_some (H1' _)). cbn [bind r_touched r_ptrs r_size].
    assert (Et : (if (negb false && touch)%bool then aset (repeat false 2) 1 true else Ok (repeat false 2)) = Ok [false; touch]) by (destruct touch; reflexivity).
    rewrite Et. cbn [bind]. rewrite aset_ok by (rewrite upd_length; exact Lg). cbn [bind]. unfold set_buf. cbn [w_bufs w_blocks w_recs]. rewrite (aset_some _ Hc). cbn [bind].
    eexists _, (length (w_blocks w)), dh. split; [reflexivity|]. split; [reflexivity|]. split; [|auto]. rewrite upd_upd. rewrite upd_app_last.
    split; [cbn [w_recs]; rewrite H1'; reflexivity|]. cbn [w_recs w_blocks]. split; [rewrite upd_length; exact H2|]. split; [rewrite nth_app_lt by exact Lb; exact H3|].
    split; [exact H4|]. split; [|split; [lia|exact H7]]. split; [lia|]. split; [apply nth_app_last|exact H4].
Qed.

Lemma o_move_10 cap od g bh bd dh d w h c touch : OInv cap 1 od g bh (Some bd) dh (Some d) w -> nth_error (w_bufs w) h = Some c -> whole cap g c ->
  exists w', chai_move 2 w h (Some 0) touch = Ok w' /\ w_bufs w' = upd (w_bufs w) h (mkBuf (Some bh) cap (Some g) false) /\
    OInv cap 0 touch g bh (Some bd) (if od then d else dh) (Some d) w'.
Proof.
  intros (H1 & H2 & H3 & H4 & (N & Q1 & Q2) & H6 & H7) Hc (W1 & W2 & W3). unfold chai_move. rewrite (aget_some Hc). cbn [bind]. rewrite W1, W2, W3.
  assert (E0 : (cap =? 0) = false) by (apply Nat.eqb_neq; lia). rewrite E0.
  unfold manager_move. rewrite (live_some H1). cbn [bind nonnull r_last r_ptrs Nat.eqb aget nth_error].
  pose proof (nth_lt H1) as Lg. pose proof (nth_lt H3) as Lb. pose proof (nth_lt Q1) as Ld.
  rewrite (live_some H1). cbn [bind r_touched r_ptrs r_size r_last aget nth_error nonnull Nat.eqb andb]. destruct od.
  - rewrite (live_some Q1), (live_some H3). cbn [bind k_space k_data]. rewrite (aset_some _ H3). cbn [bind]. rewrite (aset_some _ H1). cbn [bind w_recs].
    assert (H1' : forall x, nth_error (upd (w_recs w) g x) g = Some x) by (intros x; rewrite nth_upd by exact Lg; rewrite Nat.eqb_refl; reflexivity).
    rewrite (live_some (H1' _)). cbn [bind r_touched r_ptrs r_size].
    assert (Et : (if (negb false && touch)%bool then aset (repeat false 2) 0 true else Ok (repeat false 2)) = Ok [touch; false]) by (destruct touch; reflexivity).
    rewrite Et. cbn [bind]. rewrite aset_ok by (rewrite upd_length; exact Lg). cbn [bind w_blocks w_bufs]. unfold set_buf. cbn [w_bufs w_blocks w_recs]. rewrite (aset_some _ Hc). cbn [bind].
    eexists. split; [reflexivity|]. split; [reflexivity|]. rewrite upd_upd.
    split; [cbn [w_recs]; rewrite H1'; reflexivity|]. cbn [w_recs w_blocks]. split; [rewrite upd_length; exact H2|]. split; [rewrite nth_upd by exact Lb; rewrite Nat.eqb_refl; reflexivity|].
    split; [exact Q2|]. split; [|split; [lia|exact H7]]. split; [exact N|]. split; [rewrite nth_error_upd_ne by auto; exact Q1|exact Q2].
  - cbn [bind]. rewrite (live_some H1). cbn [bind r_touched r_ptrs r_size Nat.eqb andb].
    assert (Et : (if (negb false && touch)%bool then aset [false; false] 0 true else Ok [false; false]) = Ok [touch; false]) by (destruct touch; reflexivity).
    rewrite Et. cbn [bind]. rewrite (aset_some _ H1). cbn [bind]. unfold set_buf. cbn [w_bufs w_blocks w_recs]. rewrite (aset_some _ Hc). cbn [bind].
    eexists. split; [reflexivity|]. split; [reflexivity|].
    split; [cbn [w_recs]; rewrite nth_upd by exact Lg; rewrite Nat.eqb_refl; reflexivity|]. cbn [w_recs w_blocks]. split; [rewrite upd_length; exact H2|]. split; [exact H3|].
    split; [exact H4|]. split; [auto|split; [lia|exact H7]].
Qed.

Lemma o_touch cap cur od g bh pd dh dd w h c : OInv cap cur od g bh pd dh dd w -> nth_error (w_bufs w) h = Some c -> c_rec c = Some g ->
  exists w', chai_touch w h cur = Ok w' /\ w_bufs w' = w_bufs w /\ OInv cap cur true g bh pd dh dd w'.
Proof.
  intros (H1 & H2 & H3 & H4 & H5 & H6 & H7) Hc W1. unfold chai_touch. rewrite (aget_some Hc). cbn [bind]. rewrite W1. cbn [nonnull bind]. rewrite (live_some H1). cbn [bind r_touched r_ptrs r_size].
  set (ts := [((cur =? 0) && od)%bool; ((cur =? 1) && od)%bool]).
  assert (Et : aset ts cur true = Ok [((cur =? 0) && true)%bool; ((cur =? 1) && true)%bool]).
  { unfold ts. destruct cur as [|[|]]; [| |lia]; destruct od; reflexivity. }
  rewrite Et. cbn [bind]. rewrite (aset_some _ H1). cbn [bind]. eexists. split; [reflexivity|]. split; [reflexivity|]. pose proof (nth_lt H1) as Lg.
  split; [cbn [w_recs]; rewrite nth_upd by exact Lg; rewrite Nat.eqb_refl; reflexivity|]. split; [cbn [w_recs]; rewrite upd_length; exact H2|].
  split; [exact H3|]. split; [exact H4|]. split; [|auto]. destruct pd as [bd|], dd as [d|]; try exact H5. destruct H5 as [-> _]. auto.
Qed.

Lemma free_two bh pd (bs : list (option (block cbuf))) x : nth_error bs bh = Some (Some x) ->
  match pd with Some bd => bd <> bh /\ exists y, nth_error bs bd = Some (Some y) | None => True end ->
  exists bs', free_blocks [Some bh; pd] bs = Ok bs' /\ length bs' = length bs /\ forall b, b <> bh -> pd <> Some b -> nth_error bs' b = nth_error bs b.
Proof.
  intros Hb Hd. cbn [free_blocks]. rewrite (live_some Hb). cbn [bind]. rewrite (aset_some _ Hb). cbn [bind]. destruct pd as [bd|].
  - destruct Hd as (N & y & Hy). assert (Hy' : nth_error (upd bs bh None) bd = Some (Some y)) by (rewrite nth_error_upd_ne by auto; exact Hy).
    rewrite (live_some Hy'). cbn [bind]. rewrite (aset_some _ Hy'). cbn [bind]. eexists. split; [reflexivity|]. split; [rewrite !upd_length; reflexivity|].
    intros b N1 N2. rewrite !nth_error_upd_ne; [reflexivity| |]; congruence.
  - eexists. split; [reflexivity|]. split; [apply upd_length|]. intros b N1 _. apply nth_error_upd_ne. auto.
Qed.

(** reallocate on the host: the first [size] handles are copied, all other memory of the buffer is gone. *)
Lemma o_realloc cap od g bh pd dh dd w h c size cap' : OInv cap 0 od g bh pd dh dd w -> nth_error (w_bufs w) h = Some c -> whole cap g c -> c_ptr c = Some bh ->
  size <= cap -> size < cap' ->
  exists w' b, chai_reallocate 2 w h size 0 cap' = Ok w' /\ w_bufs w' = upd (w_bufs w) h (mkBuf (Some b) cap' (Some (S g)) false) /\
    OInv cap' 0 true (S g) b None (firstn size dh ++ repeat None (cap' - size)) None w'.
Proof.
  intros (H1 & H2 & H3 & H4 & H5 & H6 & H7) Hc (W1 & W2 & W3) Wp Ls Lc. unfold chai_reallocate. rewrite (aget_some Hc). cbn [bind]. rewrite W1, W3, Wp. cbn [nonnull bind].
  rewrite (live_some H1). cbn [bind]. rewrite H2. unfold manager_allocate. cbn [w_recs w_blocks w_bufs].
  set (r0 := mkRec cap' (repeat None 2) (repeat false 2) None).
  assert (N0 : nth_error (w_recs w ++ [Some r0]) (S g) = Some (Some r0)) by (rewrite <- H2; apply nth_app_last).
  rewrite (live_some N0). cbn [bind]. unfold r0 at 1. cbn [r_ptrs repeat aset length Nat.ltb Nat.leb upd bind]. rewrite (aset_some _ N0). cbn [bind].
  cbn [w_recs w_blocks w_bufs]. set (b := length (w_blocks w)).
  set (r1 := mkRec (r_size r0) [Some b; None] (r_touched r0) (r_last r0)).
  assert (E1 : upd (w_recs w ++ [Some r0]) (S g) (Some r1) = w_recs w ++ [Some r1]) by (rewrite <- H2; apply upd_app_last). rewrite E1.
  pose proof (nth_lt H3) as Lb. pose proof (nth_lt H1) as Lg.
  set (nd := firstn size dh ++ repeat None (cap' - size)).
  assert (Em : Nat.min cap' size = size) by lia.
  match goal with |- context [bind (if ?B then ?T else ?E) _] => assert (Q : (if B then T else E) = Ok (mkWorld (w_blocks w ++ [Some (mkBlock 0 nd)]) (w_recs w ++ [Some r1]) (w_bufs w))) end.
  { match goal with |- (if ?B then _ else _) = _ => assert (EB : B = (0 <? size)) by (destruct size; reflexivity); rewrite EB end. destruct (0 <? size) eqn:Es.
    - cbn [Nat.eqb negb error_if bind]. assert (B1 : nth_error (w_blocks w ++ [Some (mkBlock 0 (repeat (@None cbuf) (r_size r0)))]) bh = Some (Some (mkBlock 0 dh))) by (rewrite nth_app_lt by exact Lb; exact H3).
      rewrite (live_some B1). cbn [bind k_space k_data Nat.eqb andb]. rewrite H4. apply Nat.leb_le in Ls. rewrite Ls. cbn [bind].
      assert (B2 : nth_error (w_blocks w ++ [Some (mkBlock 0 (repeat (@None cbuf) (r_size r0)))]) b = Some (Some (mkBlock 0 (repeat None (r_size r0))))) by apply nth_app_last.
      rewrite (live_some B2). cbn [bind k_space k_data]. rewrite (aset_some _ B2). cbn [bind]. unfold b. rewrite upd_app_last. rewrite Em. unfold nd. unfold r0. cbn [r_size].
      do 4 f_equal. f_equal. f_equal. f_equal. f_equal. clear. revert cap'. induction size as [|s IH]; intros [|c]; cbn; auto.
    - apply Nat.ltb_ge in Es. assert (size = 0) as -> by lia. unfold nd, r0. cbn [r_size firstn app]. rewrite Nat.sub_0_r. reflexivity. }
  rewrite Q. clear Q. cbn [bind]. unfold chai_free. cbn [w_bufs]. rewrite (aget_some Hc). cbn [bind]. rewrite W1. cbn [nonnull bind]. unfold manager_free. cbn [w_recs w_blocks w_bufs].
  assert (N1 : nth_error (w_recs w ++ [Some r1]) g = Some (Some (mkRec cap [Some bh; pd] [((0 =? 0) && od)%bool; ((0 =? 1) && od)%bool] (Some 0)))) by (rewrite nth_app_lt by exact Lg; exact H1).
  rewrite (live_some N1). cbn [bind r_ptrs].
  destruct (@free_two bh pd (w_blocks w ++ [Some (mkBlock 0 nd)]) (mkBlock 0 dh)) as (bs & Ef & Lf & Of).
  { rewrite nth_app_lt by exact Lb. exact H3. }
  { destruct pd as [bd|]; [|exact I]. destruct dd as [d|]; [|contradiction]. destruct H5 as (N & Q1 & _). split; [exact N|]. eexists. rewrite nth_app_lt by (eapply nth_lt; exact Q1). exact Q1. }
  rewrite Ef. cbn [bind]. rewrite (aset_some _ N1). cbn [bind]. unfold set_buf. cbn [w_bufs w_recs w_blocks]. rewrite (aset_some _ Hc). cbn [bind w_bufs w_recs w_blocks].
  pose proof (nth_lt Hc) as Lh. rewrite aset_ok by (rewrite upd_length; exact Lh). cbn [bind]. rewrite upd_upd.
  unfold chai_touch. cbn [w_bufs w_recs w_blocks].
  assert (G1 : nth_error (upd (w_bufs w) h (mkBuf (Some b) cap' (Some (S g)) false)) h = Some (mkBuf (Some b) cap' (Some (S g)) false)) by (rewrite nth_upd by exact Lh; rewrite Nat.eqb_refl; reflexivity).
  rewrite (aget_some G1). cbn [bind c_rec nonnull]. rewrite upd_app_l by exact Lg.
  assert (G2 : nth_error (upd (w_recs w) g None ++ [Some r1]) (S g) = Some (Some r1)) by (rewrite <- H2, <- (upd_length (w_recs w) g None); apply nth_app_last).
  rewrite (live_some G2). cbn [bind]. unfold r1 at 1. cbn [r_touched]. unfold r0 at 1. cbn [r_touched repeat aset length Nat.ltb Nat.leb upd bind]. rewrite (aset_some _ G2). cbn [bind].
  eexists _, b. split; [reflexivity|]. split; [reflexivity|]. unfold OInv. cbn [w_recs w_blocks].
  split. { rewrite nth_upd by (eapply nth_lt; exact G2). rewrite Nat.eqb_refl. unfold r1, r0. reflexivity. }
  split. { rewrite upd_length, app_length, upd_length, H2. cbn. lia. }
  split. { rewrite Of; [apply nth_app_last|unfold b; lia|]. intros ->. destruct dd as [d|]; [|contradiction]. destruct H5 as (_ & Q1 & _). apply nth_lt in Q1. unfold b in Q1. lia. }
  split. { unfold nd. rewrite app_length, firstn_length, repeat_length. lia. }
  split; [auto|]. split; lia.
Qed.

Lemma o_realloc_init w h c cap' : OInit w -> nth_error (w_bufs w) h = Some c -> c_rec c = Some 0 -> c_const c = false -> 0 < cap' ->
  exists w' b, chai_reallocate 2 w h 0 0 cap' = Ok w' /\ w_bufs w' = upd (w_bufs w) h (mkBuf (Some b) cap' (Some 1) false) /\
    OInv cap' 0 true 1 b None (repeat None cap') None w'.
Proof.
  intros Hr Hc W1 W3 Lc. unfold OInit in Hr. unfold chai_reallocate. rewrite (aget_some Hc). cbn [bind]. rewrite W1, W3. cbn [nonnull bind]. rewrite Hr.
  cbn [live aget nth_error bind length]. unfold manager_allocate. cbn [w_recs w_blocks w_bufs live aget nth_error app bind r_ptrs repeat aset length Nat.ltb Nat.leb upd r_size r_touched r_last].
  cbn [bind w_recs w_blocks w_bufs]. unfold chai_free. cbn [w_bufs]. rewrite (aget_some Hc). cbn [bind]. rewrite W1. cbn [nonnull bind]. unfold manager_free.
  cbn [w_recs w_blocks w_bufs live aget nth_error bind r_ptrs free_blocks aset length Nat.ltb Nat.leb upd]. unfold set_buf. cbn [w_bufs w_recs w_blocks]. rewrite (aset_some _ Hc). cbn [bind w_bufs w_recs w_blocks].
  pose proof (nth_lt Hc) as Lh. rewrite aset_ok by (rewrite upd_length; exact Lh). cbn [bind]. rewrite upd_upd. unfold chai_touch. cbn [w_bufs w_recs w_blocks].
  assert (G1 : nth_error (upd (w_bufs w) h (mkBuf (Some (length (w_blocks w))) cap' (Some 1) false)) h = Some (mkBuf (Some (length (w_blocks w))) cap' (Some 1) false)) by (rewrite nth_upd by exact Lh; rewrite Nat.eqb_refl; reflexivity).
  rewrite (aget_some G1). cbn [bind c_rec nonnull live aget nth_error r_touched aset length Nat.ltb Nat.leb upd r_size r_ptrs w_blocks w_bufs].
  eexists _, _. split; [reflexivity|]. split; [reflexivity|]. unfold OInv. cbn [w_recs w_blocks nth_error].
  split; [reflexivity|]. split; [reflexivity|]. split; [apply nth_app_last|]. split; [apply repeat_length|]. split; [auto|]. split; lia.
Qed.
