(** Refinement of the ChaiBuffer model to the arrays of ChaiSpec. *)
From Coq Require Import List Arith Lia Bool.
From Verif Require Import Base BaseProofs Chai ChaiSpec.
Import ListNotations.
Set Implicit Arguments.
Unset Strict Implicit.

Lemma put_upd {A} (l : list A) i x : i < length l -> put l i x = upd l i x.
Proof.
  unfold put. revert i; induction l as [|y l IH]; intros [|i] H; cbn in *; try lia; [reflexivity|]. f_equal. apply IH. lia.
Qed.
Lemma nth_lt {A} (l : list A) i x : nth_error l i = Some x -> i < length l.
Proof. intros H. apply nth_error_Some. congruence. Qed.
Lemma nth_upd {A} (l : list A) i j x : i < length l -> nth_error (upd l i x) j = if i =? j then Some x else nth_error l j.
Proof.
  intros H. destruct (Nat.eqb_spec i j) as [->|N]; [apply nth_error_upd_eq; exact H|apply nth_error_upd_ne; exact N].
Qed.
Lemma aget_some {A} (l : list A) i x : nth_error l i = Some x -> aget l i = Ok x.
Proof. intros H. unfold aget. rewrite H. reflexivity. Qed.
Lemma aset_some {A} (l : list A) i x y : nth_error l i = Some x -> aset l i y = Ok (upd l i y).
Proof. intros H. unfold aset. apply nth_lt in H. apply Nat.ltb_lt in H. rewrite H. reflexivity. Qed.
Lemma live_some {A} (l : list (option A)) i x : nth_error l i = Some (Some x) -> live l i = Ok x.
Proof. intros H. unfold live. rewrite (aget_some H). reflexivity. Qed.
Lemma nth_app_last {A} (l : list A) x : nth_error (l ++ [x]) (length l) = Some x.
Proof. rewrite nth_error_app2 by lia. rewrite Nat.sub_diag. reflexivity. Qed.
Lemma nth_app_lt {A} (l l' : list A) i : i < length l -> nth_error (l ++ l') i = nth_error l i.
Proof. intros. apply nth_error_app1. exact H. Qed.

Definition onat_dec (x y : option nat) : {x = y} + {x <> y}.
Proof. decide equality. apply Nat.eq_dec. Defined.

Lemma F2_impl A B (P Q : A -> B -> Prop) l m : (forall x y, P x y -> Q x y) -> Forall2 P l m -> Forall2 Q l m.
Proof. intros H. induction 1; constructor; auto. Qed.

Lemma upd_upd A (l : list A) i x y : upd (upd l i x) i y = upd l i y.
Proof. revert i. induction l as [|z l IH]; intros [|i]; cbn; auto. f_equal. apply IH. Qed.
Lemma nth_rep_false k t : nth t (repeat false k) false = false.
Proof. destruct (nth_in_or_default t (repeat false k) false) as [H|H]; [apply repeat_spec in H; exact H|exact H]. Qed.

Section Chai.
Variable V : Type.
Variable n : nat.
Notation world := (world V).
Notation block := (block V).

Definition rec_at (w : world) i r := nth_error (w_recs w) i = Some (Some r).
Definition ptr (r : record) t b := nth_error (r_ptrs r) t = Some (Some b).
Definition blk (w : world) b (k : block) := nth_error (w_blocks w) b = Some (Some k).

Definition rel_arr (w : world) (r : record) (a : larray V) : Prop :=
  r_size r = length (l_vals a) /\ length (r_ptrs r) = n /\ length (r_touched r) = n /\ r_last r = l_cur a /\
  (forall t b, ptr r t b -> exists d, blk w b (mkBlock t d) /\ length d = length (l_vals a)) /\
  match l_cur a with
  | None => forall t, nth t (r_touched r) false = false
  | Some s =>
      s < n /\ (exists b, ptr r s b /\ blk w b (mkBlock s (l_vals a))) /\
      (forall t, nth t (r_touched r) false = true <-> t = s /\ l_dirty a = true) /\
      (n <= 2 -> l_dirty a = false -> forall t, t < n -> exists b, ptr r t b /\ blk w b (mkBlock t (l_vals a)))
  end.

Definition rel_h (arrs : list (option (larray V))) (w : world) (h : handle) (c : cbuf) : Prop :=
  c_rec c = h_arr h /\ c_const c = h_const h /\
  forall i, h_arr h = Some i -> i < length arrs /\
    forall a r, nth_error arrs i = Some (Some a) -> rec_at w i r ->
      c_cap c = length (l_vals a) /\
      match h_space h with None => c_ptr c = None | Some t => exists b, ptr r t b /\ c_ptr c = Some b end.

Definition rel_recs (arrs : list (option (larray V))) (w : world) : Prop :=
  length (w_recs w) = length arrs /\
  (forall i a, nth_error arrs i = Some (Some a) -> exists r, rec_at w i r /\ rel_arr w r a) /\
  (forall i, nth_error arrs i = Some None -> nth_error (w_recs w) i = Some None) /\
  (forall i r t i' r' t' b, rec_at w i r -> ptr r t b -> rec_at w i' r' -> ptr r' t' b -> i = i' /\ t = t') /\
  (forall b k, blk w b k -> exists i r t, rec_at w i r /\ ptr r t b).

Definition R (st : sstate V) (w : world) : Prop :=
  rel_recs (s_arrs st) w /\ Forall2 (rel_h (s_arrs st) w) (s_hs st) (w_bufs w).

Lemma R_buf st w m h : R st w -> nth_error (s_hs st) m = Some h -> exists c, nth_error (w_bufs w) m = Some c /\ rel_h (s_arrs st) w h c.
Proof.
  intros [_ F]. revert m. induction F as [|x y l l' H F IH]; intros [|m] E; try discriminate.
  - injection E as ->. exists y. auto.
  - exact (IH m E).
Qed.
Lemma F2_upd {A B} (P : A -> B -> Prop) l l' m x y : Forall2 P l l' -> P x y -> Forall2 P (upd l m x) (upd l' m y).
Proof. intros F H. revert m. induction F as [|a b l l' Hab F IH]; intros [|m]; cbn; constructor; auto. Qed.
Lemma F2_len {A B} (P : A -> B -> Prop) l l' : Forall2 P l l' -> length l = length l'.
Proof. induction 1; cbn; auto. Qed.

Lemma set_handle st w m h c : R st w -> m < length (s_hs st) -> rel_h (s_arrs st) w h c ->
  exists w', set_buf w m c = Ok w' /\ w_blocks w' = w_blocks w /\ w_recs w' = w_recs w /\ w_bufs w' = upd (w_bufs w) m c /\
    R (mkS (s_arrs st) (put (s_hs st) m h)) w'.
Proof.
  intros [A F] L H. unfold set_buf. pose proof (F2_len F) as E. rewrite aset_ok by lia. eexists. split; [reflexivity|].
  split; [reflexivity|]. split; [reflexivity|]. split; [reflexivity|]. split; [exact A|]. cbn [s_arrs s_hs w_bufs]. rewrite put_upd by exact L. apply F2_upd; [exact F|exact H].
Qed.
Lemma push_handle st w h c : R st w -> rel_h (s_arrs st) w h c -> R (mkS (s_arrs st) (s_hs st ++ [h])) (push_buf w c).
Proof. intros [A F] H. split; [exact A|]. cbn. apply Forall2_app; [exact F|]. constructor; [exact H|constructor]. Qed.

(** An array changes: its record and its own blocks. *)
Lemma update_arr st w i a a' r r' bs' : R st w -> nth_error (s_arrs st) i = Some (Some a) -> rec_at w i r ->
  let w' := mkWorld bs' (upd (w_recs w) i (Some r')) (w_bufs w) in
  length (l_vals a') = length (l_vals a) ->
  (forall t b, ptr r t b -> ptr r' t b) ->
  (forall t b, ptr r' t b -> ptr r t b \/ length (w_blocks w) <= b) ->
  (forall t t' b, ptr r' t b -> ptr r' t' b -> t = t') ->
  (forall b, b < length (w_blocks w) -> (forall t, ~ ptr r t b) -> nth_error bs' b = nth_error (w_blocks w) b) ->
  (forall b k, nth_error bs' b = Some (Some k) -> (exists t, ptr r' t b) \/ b < length (w_blocks w)) ->
  rel_arr w' r' a' ->
  R (mkS (put (s_arrs st) i (Some a')) (s_hs st)) w'.
Proof.
  intros [(L & A1 & A2 & A3 & A4) F] Ha Hr w' Lv P1 P2 P3 B1 B2 Ra. pose proof (nth_lt Ha) as Li. pose proof (nth_lt Hr) as Lr.
  assert (Rw : forall j x, rec_at w' j x <-> (j = i /\ x = r') \/ (j <> i /\ rec_at w j x)).
  { intros j x. unfold rec_at, w'. cbn [w_recs]. rewrite nth_upd by exact Lr. destruct (Nat.eqb_spec i j) as [->|Nj].
    - split; [intros E; injection E as ->; left; auto|intros [[_ ->]|[X _]]; [reflexivity|congruence]].
    - split; [intros E; right; auto|intros [[-> _]|[_ E]]; [congruence|exact E]]. }
  assert (Other : forall j x t b, j <> i -> rec_at w j x -> ptr x t b -> nth_error bs' b = nth_error (w_blocks w) b /\ b < length (w_blocks w)).
  { intros j x t b Nj Hx Hp.
    assert (Lb : b < length (w_blocks w)).
    { destruct (nth_error (s_arrs st) j) as [[aj|]|] eqn:Ej.
      - destruct (A1 j aj Ej) as (x' & Hx' & (_ & _ & _ & _ & Pb & _)). unfold rec_at in Hx, Hx'. rewrite Hx in Hx'. injection Hx' as <-.
        destruct (Pb t b Hp) as (d & Hb & _). eapply nth_lt; exact Hb.
      - apply A2 in Ej. unfold rec_at in Hx. congruence.
      - apply nth_error_None in Ej. apply nth_lt in Hx. lia. }
    split; [|exact Lb]. apply B1; [exact Lb|]. intros t' Hp'. destruct (A3 i r t' j x t b Hr Hp' Hx Hp) as [-> _]. congruence. }
  split.
  - cbn [s_arrs]. rewrite put_upd by exact Li. split; [|split; [|split; [|split]]].
    + cbn [w_recs w']. rewrite !upd_length. exact L.
    + intros j aj Hj. rewrite nth_upd in Hj by exact Li. destruct (Nat.eqb_spec i j) as [->|Nj].
      * injection Hj as <-. exists r'. split; [apply Rw; auto|exact Ra].
      * destruct (A1 j aj Hj) as (x & Hx & (C1 & C2 & C3 & C4 & C5 & C6)). exists x. split; [apply Rw; auto|].
        assert (Blk : forall t b k, ptr x t b -> blk w b k -> blk w' b k).
        { intros t b k Hp Hb. unfold blk, w'. cbn [w_blocks]. destruct (@Other j x t b) as [-> _]; auto. }
        split; [exact C1|]. split; [exact C2|]. split; [exact C3|]. split; [exact C4|]. split.
        { intros t b Hp. destruct (C5 t b Hp) as (d & Hb & Ld). eauto. }
        destruct (l_cur aj) as [s|]; [|exact C6]. destruct C6 as (D1 & (b & Hp & Hb) & D3 & D4). split; [exact D1|]. split; [eauto|]. split; [exact D3|].
        intros N2 Nd t Ht. destruct (D4 N2 Nd t Ht) as (b' & Hp' & Hb'). eauto.
    + intros j Hj. rewrite nth_upd in Hj by exact Li. destruct (Nat.eqb_spec i j) as [->|Nj]; [discriminate|].
      unfold w'. cbn [w_recs]. rewrite nth_error_upd_ne by exact Nj. apply A2. exact Hj.
    + intros j x t j' x' t' b Hx Hp Hx' Hp'. apply Rw in Hx, Hx'. destruct Hx as [[-> ->]|[Ni Hi]], Hx' as [[-> ->]|[Ni' Hi']].
      * split; [reflexivity|]. eapply P3; eauto.
      * exfalso. destruct (P2 _ _ Hp) as [Q|Q]; [destruct (A3 _ _ _ _ _ _ _ Hr Q Hi' Hp') as [<- _]; congruence|].
        destruct (@Other _ _ _ _ Ni' Hi' Hp') as [_ X]. lia.
      * exfalso. destruct (P2 _ _ Hp') as [Q|Q]; [destruct (A3 _ _ _ _ _ _ _ Hr Q Hi Hp) as [<- _]; congruence|].
        destruct (@Other _ _ _ _ Ni Hi Hp) as [_ X]. lia.
      * eapply (A3 j x t j'); eauto.
    + intros b k Hb. unfold blk, w' in Hb. cbn [w_blocks] in Hb. destruct (B2 b k Hb) as [(t & Hp)|Lb].
      * exists i, r', t. split; [apply Rw; auto|exact Hp].
      * destruct (nth_error (w_blocks w) b) as [[k0|]|] eqn:Eb.
        -- destruct (A4 b k0 Eb) as (j & x & t & Hx & Hp). destruct (Nat.eq_dec j i) as [->|Nj].
           ++ unfold rec_at in Hx, Hr. rewrite Hr in Hx. injection Hx as <-. exists i, r', t. split; [apply Rw; auto|auto].
           ++ exists j, x, t. split; [apply Rw; auto|exact Hp].
        -- assert (Q : (exists t, ptr r t b) \/ (forall t, ~ ptr r t b)).
           { destruct (in_dec onat_dec (Some b) (r_ptrs r)) as [Hi|Hi].
             - left. apply In_nth_error in Hi. exact Hi.
             - right. intros t Ht. apply Hi. eapply nth_error_In; exact Ht. }
           destruct Q as [(t & Hp)|Q]; [exists i, r', t; split; [apply Rw; auto|auto]|].
           rewrite (B1 b Lb Q) in Hb. congruence.
        -- apply nth_error_None in Eb. lia.
  - cbn [s_arrs s_hs]. rewrite put_upd by exact Li. eapply F2_impl; [|exact F]. intros h c (H1 & H2 & H3). split; [exact H1|]. split; [exact H2|].
    intros j Hj. destruct (H3 j Hj) as [Lj Q]. split; [rewrite upd_length; exact Lj|]. intros aj x Haj Hx. rewrite nth_upd in Haj by exact Li.
    apply Rw in Hx. destruct (Nat.eqb_spec i j) as [->|Nj].
    + injection Haj as <-. destruct Hx as [[_ ->]|[X _]]; [|congruence]. destruct (Q a r Ha Hr) as [Qc Qp]. split; [congruence|].
      destruct (h_space h); [|exact Qp]. destruct Qp as (b & Hb & Hc). eauto.
    + destruct Hx as [[-> _]|[_ Hx]]; [congruence|]. exact (Q aj x Haj Hx).
Qed.

(** A new array with one block or none. *)
Lemma push_arr st w a r bs : R st w ->
  (forall b, b < length (w_blocks w) -> nth_error bs b = nth_error (w_blocks w) b) ->
  (forall t b, ptr r t b -> length (w_blocks w) <= b) ->
  (forall t t' b, ptr r t b -> ptr r t' b -> t = t') ->
  (forall b k, nth_error bs b = Some (Some k) -> (exists t, ptr r t b) \/ b < length (w_blocks w)) ->
  rel_arr (mkWorld bs (w_recs w ++ [Some r]) (w_bufs w)) r a ->
  R (mkS (s_arrs st ++ [Some a]) (s_hs st)) (mkWorld bs (w_recs w ++ [Some r]) (w_bufs w)).
Proof.
  intros [(L & A1 & A2 & A3 & A4) F] B1 P2 P3 B2 Ra. set (w' := mkWorld bs (w_recs w ++ [Some r]) (w_bufs w)) in *.
  assert (Rw : forall j x, rec_at w' j x <-> (j = length (w_recs w) /\ x = r) \/ (j < length (w_recs w) /\ rec_at w j x)).
  { intros j x. unfold rec_at, w'. cbn [w_recs]. destruct (Nat.lt_trichotomy j (length (w_recs w))) as [Lt|[->|Gt]].
    - rewrite nth_app_lt by exact Lt. split; [auto|]. intros [[-> _]|[_ E]]; [lia|exact E].
    - rewrite nth_app_last. split; [intros E; injection E as ->; auto|intros [[_ ->]|[X _]]; [reflexivity|lia]].
    - split; [|intros [[-> _]|[X _]]; lia]. intros E. apply nth_lt in E. rewrite app_length in E. cbn in E. lia. }
  assert (Old : forall j x t b, rec_at w j x -> ptr x t b -> b < length (w_blocks w)).
  { intros j x t b Hx Hp. destruct (nth_error (s_arrs st) j) as [[aj|]|] eqn:Ej.
    - destruct (A1 j aj Ej) as (x' & Hx' & (_ & _ & _ & _ & Pb & _)). unfold rec_at in Hx, Hx'. rewrite Hx in Hx'. injection Hx' as <-.
      destruct (Pb t b Hp) as (d & Hb & _). eapply nth_lt; exact Hb.
    - apply A2 in Ej. unfold rec_at in Hx. congruence.
    - apply nth_error_None in Ej. apply nth_lt in Hx. lia. }
  split.
  - cbn [s_arrs]. split; [|split; [|split; [|split]]].
    + cbn [w_recs w']. rewrite !app_length, L. reflexivity.
    + intros j aj Hj. destruct (Nat.lt_ge_cases j (length (s_arrs st))) as [Lt|Ge].
      * rewrite nth_app_lt in Hj by exact Lt. destruct (A1 j aj Hj) as (x & Hx & (C1 & C2 & C3 & C4 & C5 & C6)). exists x. split; [apply Rw; right; split; [lia|exact Hx]|].
        assert (Blk : forall t b k, ptr x t b -> blk w b k -> blk w' b k).
        { intros t b k Hp Hb. unfold blk, w'. cbn [w_blocks]. rewrite B1; [exact Hb|]. eapply Old; eauto. }
        split; [exact C1|]. split; [exact C2|]. split; [exact C3|]. split; [exact C4|]. split.
        { intros t b Hp. destruct (C5 t b Hp) as (d & Hb & Ld). eauto. }
        destruct (l_cur aj) as [s|]; [|exact C6]. destruct C6 as (D1 & (b & Hp & Hb) & D3 & D4). split; [exact D1|]. split; [eauto|]. split; [exact D3|].
        intros N2 Nd t Ht. destruct (D4 N2 Nd t Ht) as (b' & Hp' & Hb'). eauto.
      * assert (j = length (s_arrs st)) as ->. { apply nth_lt in Hj. rewrite app_length in Hj. cbn in Hj. lia. }
        rewrite nth_app_last in Hj. injection Hj as <-. exists r. split; [apply Rw; left; auto|exact Ra].
    + intros j Hj. destruct (Nat.lt_ge_cases j (length (s_arrs st))) as [Lt|Ge].
      * rewrite nth_app_lt in Hj by exact Lt. unfold w'. cbn [w_recs]. rewrite nth_app_lt by lia. apply A2. exact Hj.
      * assert (j = length (s_arrs st)) as ->. { apply nth_lt in Hj. rewrite app_length in Hj. cbn in Hj. lia. }
        rewrite nth_app_last in Hj. discriminate.
    + intros j x t j' x' t' b Hx Hp Hx' Hp'. apply Rw in Hx, Hx'. destruct Hx as [[-> ->]|[Ni Hi]], Hx' as [[-> ->]|[Ni' Hi']].
      * split; [reflexivity|]. eapply P3; eauto.
      * exfalso. apply P2 in Hp. pose proof (@Old _ _ _ _ Hi' Hp'). lia.
      * exfalso. apply P2 in Hp'. pose proof (@Old _ _ _ _ Hi Hp). lia.
      * eapply (A3 j x t j'); eauto.
    + intros b k Hb. unfold blk, w' in Hb. cbn [w_blocks] in Hb. destruct (B2 b k Hb) as [(t & Hp)|Lb].
      * exists (length (w_recs w)), r, t. split; [apply Rw; auto|exact Hp].
      * rewrite B1 in Hb by exact Lb. destruct (A4 b k Hb) as (j & x & t & Hx & Hp). exists j, x, t. split; [apply Rw; right; split; [eapply nth_lt; exact Hx|exact Hx]|exact Hp].
  - cbn [s_arrs s_hs]. eapply F2_impl; [|exact F]. intros h c (H1 & H2 & H3). split; [exact H1|]. split; [exact H2|].
    intros j Hj. destruct (H3 j Hj) as [Lj Q]. split; [rewrite app_length; lia|]. intros aj x Haj Hx. rewrite nth_app_lt in Haj by exact Lj.
    apply Rw in Hx. destruct Hx as [[-> _]|[_ Hx]]; [lia|]. exact (Q aj x Haj Hx).
Qed.

Lemma free_blocks_ok ps : forall bs : list (option block),
  (forall b, In (Some b) ps -> exists k, nth_error bs b = Some (Some k)) ->
  (forall t t' b, nth_error ps t = Some (Some b) -> nth_error ps t' = Some (Some b) -> t = t') ->
  exists bs', free_blocks ps bs = Ok bs' /\ length bs' = length bs /\
    (forall b, In (Some b) ps -> nth_error bs' b = Some None) /\
    (forall b, ~ In (Some b) ps -> nth_error bs' b = nth_error bs b).
Proof.
  induction ps as [|[b|] ps IH]; intros bs Lv D; cbn [free_blocks].
  - exists bs. split; [reflexivity|]. split; [reflexivity|]. split; [intros b []|auto].
  - destruct (Lv b) as (k & Hk); [left; reflexivity|]. rewrite (live_some Hk). cbn [bind]. rewrite (aset_some None Hk). cbn [bind].
    pose proof (nth_lt Hk) as Lb.
    assert (Nb : ~ In (Some b) ps).
    { intros H. apply In_nth_error in H. destruct H as (t & H). specialize (D 0 (S t) b eq_refl H). lia. }
    destruct (IH (upd bs b None)) as (bs' & E & Ll & I1 & I2).
    + intros b' H. destruct (Lv b') as (k' & Hk'); [right; exact H|]. exists k'. rewrite nth_error_upd_ne; [exact Hk'|]. intros ->. contradiction.
    + intros t t' b' H H'. specialize (D (S t) (S t') b' H H'). lia.
    + exists bs'. split; [exact E|]. rewrite upd_length in Ll. split; [exact Ll|]. split.
      * intros b' [H|H]; [|apply I1; exact H]. injection H as <-. rewrite I2 by exact Nb. apply nth_error_upd_eq. exact Lb.
      * intros b' H. rewrite I2 by (intros X; apply H; right; exact X). apply nth_error_upd_ne. intros ->. apply H. left. reflexivity.
  - destruct (IH bs) as (bs' & E & Ll & I1 & I2).
    + intros b H. apply Lv. right. exact H.
    + intros t t' b H H'. specialize (D (S t) (S t') b H H'). lia.
    + exists bs'. split; [exact E|]. split; [exact Ll|]. split.
      * intros b [H|H]; [discriminate|auto].
      * intros b H. apply I2. intros X. apply H. right. exact X.
Qed.

(** An array goes. *)
Lemma kill_arr st w i a r : R st w -> nth_error (s_arrs st) i = Some (Some a) -> rec_at w i r ->
  exists w', manager_free w i = Ok w' /\ w_bufs w' = w_bufs w /\ w_recs w' = upd (w_recs w) i None /\
    (forall b, (forall t, ~ ptr r t b) -> nth_error (w_blocks w') b = nth_error (w_blocks w) b) /\
    R (mkS (put (s_arrs st) i None) (s_hs st)) w'.
Proof.
  intros [(L & A1 & A2 & A3 & A4) F] Ha Hr. pose proof (nth_lt Ha) as Li. pose proof (nth_lt Hr) as Lr.
  destruct (A1 i a Ha) as (r0 & Hr0 & (_ & _ & _ & _ & Pb & _)). unfold rec_at in Hr0, Hr. rewrite Hr in Hr0. injection Hr0 as <-.
  unfold manager_free. rewrite (live_some Hr). cbn [bind].
  destruct (@free_blocks_ok (r_ptrs r) (w_blocks w)) as (bs & E & Ll & I1 & I2).
  { intros b H. apply In_nth_error in H. destruct H as (t & H). destruct (Pb t b H) as (d & Hb & _). eauto. }
  { intros t t' b H H'. eapply (A3 i r t i r t'); eauto. }
  rewrite E. cbn [bind]. rewrite (aset_some None Hr). cbn [bind]. set (w' := mkWorld bs (upd (w_recs w) i None) (w_bufs w)).
  exists w'. split; [reflexivity|]. split; [reflexivity|]. split; [reflexivity|].
  assert (Own : forall b, (forall t, ~ ptr r t b) -> nth_error (w_blocks w') b = nth_error (w_blocks w) b).
  { intros b H. apply I2. intros X. apply In_nth_error in X. destruct X as (t & X). exact (H t X). }
  split; [exact Own|].
  assert (Rw : forall j x, rec_at w' j x <-> (j <> i /\ rec_at w j x)).
  { intros j x. unfold rec_at, w'. cbn [w_recs]. rewrite nth_upd by exact Lr. destruct (Nat.eqb_spec i j) as [->|Nj]; [split; [discriminate|intros [X _]; congruence]|].
    split; [auto|intros [_ X]; exact X]. }
  split.
  - cbn [s_arrs]. rewrite put_upd by exact Li. split; [|split; [|split; [|split]]].
    + cbn [w_recs w']. rewrite !upd_length. exact L.
    + intros j aj Hj. rewrite nth_upd in Hj by exact Li. destruct (Nat.eqb_spec i j) as [->|Nj]; [discriminate|].
      destruct (A1 j aj Hj) as (x & Hx & (C1 & C2 & C3 & C4 & C5 & C6)). exists x. split; [apply Rw; auto|].
      assert (Blk : forall t b k, ptr x t b -> blk w b k -> blk w' b k).
      { intros t b k Hp Hb. unfold blk. rewrite Own; [exact Hb|]. intros t' Hp'. destruct (A3 i r t' j x t b Hr Hp' Hx Hp) as [X _]. congruence. }
      split; [exact C1|]. split; [exact C2|]. split; [exact C3|]. split; [exact C4|]. split.
      { intros t b Hp. destruct (C5 t b Hp) as (d & Hb & Ld). eauto. }
      destruct (l_cur aj) as [s|]; [|exact C6]. destruct C6 as (D1 & (b & Hp & Hb) & D3 & D4). split; [exact D1|]. split; [eauto|]. split; [exact D3|].
      intros N2 Nd t Ht. destruct (D4 N2 Nd t Ht) as (b' & Hp' & Hb'). eauto.
    + intros j Hj. unfold w'. cbn [w_recs]. rewrite nth_upd in Hj by exact Li. rewrite nth_upd by exact Lr. destruct (Nat.eqb_spec i j) as [->|Nj]; [reflexivity|]. apply A2. exact Hj.
    + intros j x t j' x' t' b Hx Hp Hx' Hp'. apply Rw in Hx, Hx'. destruct Hx as [_ Hx], Hx' as [_ Hx']. eapply (A3 j x t j'); eauto.
    + intros b k Hb. unfold blk, w' in Hb. cbn [w_blocks] in Hb. destruct (in_dec onat_dec (Some b) (r_ptrs r)) as [Hi|Hi]; [rewrite I1 in Hb by exact Hi; discriminate|].
      rewrite I2 in Hb by exact Hi. destruct (A4 b k Hb) as (j & x & t & Hx & Hp). exists j, x, t. split; [|exact Hp]. apply Rw. split; [|exact Hx].
      intros ->. unfold rec_at in Hx. rewrite Hr in Hx. injection Hx as <-. apply Hi. eapply nth_error_In; exact Hp.
  - cbn [s_arrs s_hs]. rewrite put_upd by exact Li. eapply F2_impl; [|exact F]. intros h c (H1 & H2 & H3). split; [exact H1|]. split; [exact H2|].
    intros j Hj. destruct (H3 j Hj) as [Lj Q]. split; [rewrite upd_length; exact Lj|]. intros aj x Haj Hx. rewrite nth_upd in Haj by exact Li.
    apply Rw in Hx. destruct (Nat.eqb_spec i j) as [->|Nj]; [discriminate|]. exact (Q aj x Haj (proj2 Hx)).
Qed.

(** ** The steps *)
Lemma R_arr st w i a : R st w -> nth_error (s_arrs st) i = Some (Some a) -> exists r, rec_at w i r /\ rel_arr w r a.
Proof. intros [(_ & A1 & _) _]. apply A1. Qed.
Lemma R_dist st w i r t t' b : R st w -> rec_at w i r -> ptr r t b -> ptr r t' b -> t = t'.
Proof. intros [(_ & _ & _ & A3 & _) _] Hr Hp Hp'. eapply (A3 i r t i r t'); eauto. Qed.
Lemma arr_of_inv st (h : handle) i a : arr_of st h = Some (i, a) -> h_arr h = Some i /\ nth_error (s_arrs (V := V) st) i = Some (Some a).
Proof.
  unfold arr_of. destruct (h_arr h) as [j|]; [|discriminate]. destruct (nth_error (s_arrs st) j) as [[x|]|] eqn:E; try discriminate.
  intros H. injection H as <- <-. auto.
Qed.
Lemma blk_lt w b k : blk w b k -> b < length (w_blocks w).
Proof. apply nth_lt. Qed.
Lemma touched_get r t : t < length (r_touched r) -> aget (r_touched r) t = Ok (nth t (r_touched r) false).
Proof. intros H. apply aget_nth. exact H. Qed.

Lemma step_new st w : R st w ->
  R (mkS (s_arrs st ++ [Some (mkL [] None false)]) (s_hs st ++ [mkH (Some (length (s_arrs st))) None false])) (chai_new n w).
Proof.
  intros HR. pose proof HR as [(L & _) _]. unfold chai_new.
  assert (E : forall t b, ~ ptr (mkRec 0 (repeat None n) (repeat false n) None) t b).
  { intros t b H. apply nth_error_In, repeat_spec in H. discriminate. }
  apply (@push_handle (mkS (s_arrs st ++ [Some (mkL [] None false)]) (s_hs st))
    (mkWorld (w_blocks w) (w_recs w ++ [Some (mkRec 0 (repeat None n) (repeat false n) None)]) (w_bufs w))).
  - apply push_arr; auto.
    + intros t b H. exfalso. exact (E t b H).
    + intros t t' b H. exfalso. exact (E t b H).
    + intros b k H. right. eapply nth_lt; exact H.
    + repeat split; cbn [r_ptrs r_touched r_size l_vals length]; rewrite ?repeat_length; auto.
      * intros t b H. exfalso. exact (E t b H).
      * cbn [l_cur]. intros t. destruct (nth_in_or_default t (repeat false n) false) as [H|H]; [apply repeat_spec in H; exact H|exact H].
  - cbn [s_arrs]. split; [cbn; congruence|]. split; [reflexivity|]. intros i Hi. cbn [h_arr] in Hi. injection Hi as <-. rewrite app_length. split; [cbn; lia|].
    intros a r Ha Hr. rewrite nth_app_last in Ha. injection Ha as <-. split; reflexivity.
Qed.

Lemma step_touch st w m h i a s : R st w -> nth_error (s_hs st) m = Some h -> arr_of st h = Some (i, a) -> eqo (l_cur a) s = true ->
  exists w', chai_touch w m s = Ok w' /\ R (mkS (put (s_arrs st) i (Some (mkL (l_vals a) (l_cur a) true))) (s_hs st)) w'.
Proof.
  intros HR Hh Ha Ec. apply arr_of_inv in Ha. destruct Ha as [Hi Ha]. destruct (R_buf HR Hh) as (c & Hc & (Q1 & Q2 & Q3)).
  destruct (R_arr HR Ha) as (r & Hr & Ra). pose proof Ra as (C1 & C2 & C3 & C4 & C5 & C6).
  destruct (l_cur a) as [x|] eqn:Ecur; [|discriminate]. cbn [eqo] in Ec. apply Nat.eqb_eq in Ec. subst x. destruct C6 as (D1 & D2 & D3 & D4).
  unfold chai_touch. rewrite (aget_some Hc). cbn [bind]. rewrite Q1, Hi. cbn [nonnull bind]. rewrite (live_some Hr). cbn [bind].
  rewrite aset_ok by lia. cbn [bind]. rewrite (aset_some _ Hr). cbn [bind]. eexists. split; [reflexivity|].
  eapply update_arr; eauto.
  - intros t t' b H H'. eapply R_dist; eauto.
  - intros b k H. right. eapply nth_lt; exact H.
  - split; [exact C1|]. split; [exact C2|]. split; [cbn; rewrite upd_length; exact C3|]. split; [reflexivity|]. split; [exact C5|].
    cbn [l_cur]. split; [exact D1|]. split; [exact D2|]. split; [|discriminate].
    intros t. cbn [r_touched l_dirty]. destruct (Nat.eq_dec s t) as [<-|Nt].
    + rewrite nth_upd_eq by lia. tauto.
    + rewrite nth_upd_ne by exact Nt. rewrite D3. split; intros [X _]; subst; congruence.
Qed.

(** The array manager brings a touched array to another space. *)
Lemma move_mid st w i a r l s : R st w -> nth_error (s_arrs st) i = Some (Some a) -> rec_at w i r ->
  l_cur a = Some l -> l <> s -> s < n -> l_dirty a = true ->
  exists bs ps b, manager_move n w i s = Ok (mkWorld bs (upd (w_recs w) i (Some (mkRec (r_size r) ps (repeat false n) (r_last r)))) (w_bufs w), b) /\
    length ps = n /\ nth_error ps s = Some (Some b) /\ nth_error bs b = Some (Some (mkBlock s (l_vals a))) /\
    (exists b0, ptr r l b0 /\ nth_error bs b0 = Some (Some (mkBlock l (l_vals a)))) /\
    (forall t b', ptr r t b' -> nth_error ps t = Some (Some b')) /\
    (forall t b', nth_error ps t = Some (Some b') -> ptr r t b' \/ length (w_blocks w) <= b') /\
    (forall t t' b', nth_error ps t = Some (Some b') -> nth_error ps t' = Some (Some b') -> t = t') /\
    (forall b', b' < length (w_blocks w) -> (forall t, ~ ptr r t b') -> nth_error bs b' = nth_error (w_blocks w) b') /\
    (forall b' k, nth_error bs b' = Some (Some k) -> (exists t, nth_error ps t = Some (Some b')) \/ b' < length (w_blocks w)) /\
    (forall t b', nth_error ps t = Some (Some b') -> exists d, nth_error bs b' = Some (Some (mkBlock t d)) /\ length d = length (l_vals a)).
Proof.
  intros HR Ha Hr Hc Nl Ls Hd. destruct (R_arr HR Ha) as (r0 & Hr0 & (C1 & C2 & C3 & C4 & C5 & C6)).
  unfold rec_at in Hr, Hr0. rewrite Hr in Hr0. injection Hr0 as <-. rewrite Hc in C6. destruct C6 as (D1 & (b0 & Hp0 & Hb0) & D3 & D4).
  pose proof (nth_lt Hr) as Lr. pose proof (blk_lt Hb0) as Lb0.
  assert (Dst : forall t t' b, ptr r t b -> ptr r t' b -> t = t') by (intros t t' b; apply (R_dist HR Hr)).
  assert (Tl : nth l (r_touched r) false = true) by (apply D3; auto).
  unfold manager_move. rewrite (live_some Hr). cbn [bind]. rewrite C4, Hc. cbn [nonnull bind]. destruct (Nat.eqb_spec l s) as [|_]; [contradiction|].
  destruct (nth_error (r_ptrs r) s) as [p|] eqn:Ep; [|apply nth_error_None in Ep; lia]. rewrite (aget_some Ep). cbn [bind].
  destruct p as [b|].
  - destruct (C5 s b Ep) as (d & Hb & Ld). pose proof (blk_lt Hb) as Lb. cbn [bind]. rewrite (live_some Hr). cbn [bind]. rewrite touched_get by lia. cbn [bind]. rewrite Tl.
    rewrite (aget_some Hp0). cbn [bind nonnull]. rewrite (live_some Hb0). cbn [bind]. rewrite (live_some Hb). cbn [bind k_space k_data].
    rewrite (aset_some _ Hb). cbn [bind]. rewrite (aset_some _ Hr). cbn [bind].
    assert (Nb : b <> b0). { intros ->. apply Nl. eapply Dst; eauto. }
    eexists _, (r_ptrs r), b. split; [rewrite C4, Hc; reflexivity|]. split; [exact C2|]. split; [exact Ep|]. split; [apply nth_error_upd_eq; exact Lb|].
    split; [exists b0; split; [exact Hp0|rewrite nth_error_upd_ne by exact Nb; exact Hb0]|].
    split; [auto|]. split; [auto|]. split; [exact Dst|]. split.
    { intros b' _ H. apply nth_error_upd_ne. intros ->. exact (H s Ep). }
    split; [intros b' k H; right; apply nth_lt in H; rewrite upd_length in H; exact H|].
    intros t b' Hp. rewrite nth_upd by exact Lb. destruct (Nat.eqb_spec b b') as [->|Nb']; [|apply C5; exact Hp].
    rewrite (Dst _ _ _ Ep Hp). eauto.
  - unfold manager_allocate. rewrite (live_some Hr). cbn [bind]. rewrite (aset_some _ Ep). cbn [bind]. rewrite (aset_some _ Hr). cbn [bind].
    set (bn := length (w_blocks w)). set (ps := upd (r_ptrs r) s (Some bn)).
    cbn [w_recs w_blocks w_bufs]. erewrite live_some by (apply nth_error_upd_eq; exact Lr). cbn [bind r_touched r_ptrs r_size r_last].
    rewrite touched_get by lia. cbn [bind]. rewrite Tl.
    assert (Pl : nth_error ps l = Some (Some b0)) by (unfold ps; rewrite nth_error_upd_ne by congruence; exact Hp0).
    rewrite (aget_some Pl). cbn [bind nonnull]. erewrite live_some by (rewrite nth_app_lt by exact Lb0; exact Hb0). cbn [bind].
    erewrite live_some by apply nth_app_last. cbn [bind k_space k_data]. erewrite aset_some by apply nth_app_last. cbn [bind].
    rewrite aset_ok by (rewrite upd_length; exact Lr). cbn [bind]. rewrite upd_upd.
    assert (Up : upd (w_blocks w ++ [Some (mkBlock s (repeat None (r_size r)))]) bn (Some (mkBlock s (l_vals a))) = w_blocks w ++ [Some (mkBlock s (l_vals a))]).
    { unfold bn. clear. induction (w_blocks w) as [|x l IH]; cbn; [reflexivity|]. f_equal. exact IH. }
    fold bn. rewrite Up. eexists _, ps, bn. split; [rewrite C4, Hc; reflexivity|].
    split; [unfold ps; rewrite upd_length; exact C2|]. split; [unfold ps; apply nth_error_upd_eq; lia|]. split; [apply nth_app_last|].
    split; [exists b0; split; [exact Hp0|rewrite nth_app_lt by exact Lb0; exact Hb0]|].
    assert (Pi : forall t b', nth_error ps t = Some (Some b') -> (t <> s /\ ptr r t b' /\ b' < bn) \/ (t = s /\ b' = bn)).
    { intros t b' H. unfold ps in H. rewrite nth_upd in H by lia. destruct (Nat.eqb_spec s t) as [->|Nt]; [injection H as <-; auto|].
      left. split; [congruence|]. split; [exact H|]. destruct (C5 t b' H) as (d & Hb & _). eapply blk_lt; exact Hb. }
    split. { intros t b' H. unfold ps. rewrite nth_upd by lia. destruct (Nat.eqb_spec s t) as [->|Nt]; [unfold ptr in H; congruence|exact H]. }
    split. { intros t b' H. destruct (Pi t b' H) as [(_ & X & _)|[_ ->]]; [left; exact X|right; unfold bn; lia]. }
    split. { intros t t' b' H H'. destruct (Pi _ _ H) as [(_ & X & Y)|[-> ->]], (Pi _ _ H') as [(_ & X' & Y')|[-> Y']]; try lia. eapply Dst; eauto. }
    split. { intros b' Lb' _. apply nth_app_lt. exact Lb'. }
    split. { intros b' k H. apply nth_lt in H. rewrite app_length in H. cbn in H. destruct (Nat.eq_dec b' bn) as [->|]; [left; exists s; unfold ps; apply nth_error_upd_eq; lia|right; unfold bn in *; lia]. }
    intros t b' H. destruct (Pi _ _ H) as [(_ & X & Y)|[-> ->]]; [|exists (l_vals a); split; [apply nth_app_last|reflexivity]].
    rewrite nth_app_lt by exact Y. apply C5. exact X.
Qed.

Lemma step_move st w m s touch st' : R st w -> spec_move n st m s touch = Some st' ->
  exists w', chai_move n w m s touch = Ok w' /\ R st' w'.
Proof.
  intros HR E. unfold spec_move in E. destruct (nth_error (s_hs st) m) as [h|] eqn:Hh; [|discriminate].
  destruct (R_buf HR Hh) as (c & Hc & Rh). pose proof Rh as (Q1 & Q2 & Q3). pose proof (nth_lt Hh) as Lm. unfold chai_move. rewrite (aget_some Hc). cbn [bind].
  destruct s as [s|]; [|injection E as <-; eauto]. rewrite Q1. destruct (h_arr h) as [i|] eqn:Hi; [|injection E as <-; eauto].
  destruct (arr_of st h) as [[i' a]|] eqn:Ea; [|discriminate]. apply arr_of_inv in Ea. destruct Ea as [Hi' Ha]. rewrite Hi in Hi'. injection Hi' as <-.
  destruct (R_arr HR Ha) as (r & Hr & Ra). pose proof Ra as (C1 & C2 & C3 & C4 & C5 & C6). destruct (Q3 i eq_refl) as [Li Q4]. destruct (Q4 a r Ha Hr) as [Cap Q5].
  rewrite Cap. destruct (l_vals a) as [|v0 vs0] eqn:Ev; [injection E as <-; cbn; eauto|]. rewrite <- Ev in *. replace (length (l_vals a) =? 0) with false by (rewrite Ev; reflexivity).
  destruct (l_cur a) as [l|] eqn:Hl; [|discriminate]. pose proof (nth_lt Hr) as Lr.
  assert (Dst : forall t t' b, ptr r t b -> ptr r t' b -> t = t') by (intros t t' b; apply (R_dist HR Hr)).
  assert (Fin : forall w1 b r1 a' ts, manager_move n w i s = Ok (w1, b) -> rec_at w1 i r1 ->
     (if (negb (h_const h) && touch)%bool then aset (r_touched r1) s true else Ok (r_touched r1)) = Ok ts ->
     let w2 := mkWorld (w_blocks w1) (upd (w_recs w1) i (Some (mkRec (r_size r1) (r_ptrs r1) ts (Some s)))) (w_bufs w1) in
     nth_error (r_ptrs r1) s = Some (Some b) -> length (l_vals a') = length (l_vals a) ->
     R (mkS (put (s_arrs st) i (Some a')) (s_hs st)) w2 ->
     exists w', ('(w1, b) <- manager_move n w i s;;
        r <- live (w_recs w1) i;;
        ts <- (if (negb (c_const c) && touch)%bool then aset (r_touched r) s true else Ok (r_touched r));;
        recs <- aset (w_recs w1) i (Some {| r_size := r_size r; r_ptrs := r_ptrs r; r_touched := ts; r_last := Some s |});;
        set_buf {| w_blocks := w_blocks w1; w_recs := recs; w_bufs := w_bufs w1 |} m {| c_ptr := Some b; c_cap := length (l_vals a); c_rec := Some i; c_const := c_const c |}) = Ok w'
       /\ R (mkS (put (s_arrs st) i (Some a')) (put (s_hs st) m (mkH (Some i) (Some s) (h_const h)))) w').
  { intros w1 b r1 a' ts Em Hr1 Et w2 Hp La HR2. rewrite Em. cbn [bind]. rewrite (live_some Hr1). cbn [bind]. rewrite Q2, Et. cbn [bind]. rewrite (aset_some _ Hr1). cbn [bind].
    fold w2. destruct (@set_handle _ w2 m (mkH (Some i) (Some s) (h_const h)) (mkBuf (Some b) (length (l_vals a)) (Some i) (h_const h)) HR2 Lm) as (w' & E1 & _ & _ & _ & HR').
    { split; [reflexivity|]. split; [reflexivity|]. cbn [h_arr s_arrs]. intros j Hj. injection Hj as <-. rewrite put_upd by exact Li. rewrite upd_length. split; [exact Li|].
      intros aj rj Haj Hrj. rewrite nth_error_upd_eq in Haj by exact Li. injection Haj as <-. unfold rec_at, w2 in Hrj. cbn [w_recs] in Hrj.
      rewrite nth_error_upd_eq in Hrj by (eapply nth_lt; exact Hr1). injection Hrj as <-. split; [cbn; congruence|]. cbn [h_space]. exists b. split; [exact Hp|reflexivity]. }
    exists w'. split; [exact E1|exact HR']. }
  destruct C6 as (D1 & (b0 & Hp0 & Hb0) & D3 & D4).
  destruct (Nat.eqb_spec l s) as [->|Nl].
  - injection E as <-.
    assert (Em : manager_move n w i s = Ok (w, b0)).
    { unfold manager_move. rewrite (live_some Hr). cbn [bind]. rewrite C4. cbn [nonnull bind]. rewrite Nat.eqb_refl. rewrite (aget_some Hp0). reflexivity. }
    destruct (negb (h_const h) && touch)%bool eqn:Et.
    + eapply (Fin w b0 r _ _ Em Hr); [apply aset_ok; lia|exact Hp0|reflexivity|].
      eapply update_arr; eauto.
      * intros b k H. right. eapply nth_lt; exact H.
      * rewrite orb_true_r. split; [exact C1|]. split; [exact C2|]. split; [cbn; rewrite upd_length; exact C3|]. split; [reflexivity|]. split; [exact C5|].
        cbn [l_cur]. split; [exact D1|]. split; [exists b0; split; [exact Hp0|exact Hb0]|]. split; [|discriminate].
        intros t. cbn [r_touched l_dirty]. destruct (Nat.eq_dec s t) as [<-|Nt].
        -- rewrite nth_upd_eq by lia. tauto.
        -- rewrite nth_upd_ne by exact Nt. rewrite D3. split; intros [X _]; subst; congruence.
    + eapply (Fin w b0 r _ _ Em Hr); [reflexivity|exact Hp0|reflexivity|].
      eapply update_arr; eauto.
      * intros b k H. right. eapply nth_lt; exact H.
      * rewrite orb_false_r. split; [exact C1|]. split; [exact C2|]. split; [exact C3|]. split; [reflexivity|]. split; [exact C5|].
        cbn [l_cur]. split; [exact D1|]. split; [exists b0; split; [exact Hp0|exact Hb0]|]. split; [exact D3|exact D4].
  - destruct ((s <? n) && ((n <=? 2) || l_dirty a))%bool eqn:Ok1; [|discriminate]. injection E as <-. apply andb_prop in Ok1. destruct Ok1 as [Ls Ok1]. apply Nat.ltb_lt in Ls.
    destruct (l_dirty a) eqn:Hd.
    + destruct (@move_mid st w i a r l s HR Ha Hr Hl Nl Ls Hd) as (bs & ps & b & Em & M1 & M2 & M3 & (b1 & M4 & M4') & M5 & M6 & M7 & M8 & M9 & M10).
      assert (Hr1 : rec_at (mkWorld bs (upd (w_recs w) i (Some (mkRec (r_size r) ps (repeat false n) (r_last r)))) (w_bufs w)) i (mkRec (r_size r) ps (repeat false n) (r_last r))).
      { unfold rec_at. cbn [w_recs]. apply nth_error_upd_eq. exact Lr. }
      destruct (negb (h_const h) && touch)%bool eqn:Et.
      * eapply (Fin _ b _ _ _ Em Hr1); [apply aset_ok; cbn; rewrite repeat_length; exact Ls|exact M2|reflexivity|].
        cbn [w_blocks w_recs w_bufs r_ptrs r_size r_touched]. rewrite upd_upd. eapply update_arr; eauto.
        split; [exact C1|]. split; [exact M1|]. split; [cbn; rewrite upd_length; apply repeat_length|]. split; [reflexivity|]. split; [exact M10|].
        cbn [l_cur]. split; [exact Ls|]. split; [exists b; split; [exact M2|exact M3]|]. split; [|discriminate].
        intros t. cbn [r_touched l_dirty]. destruct (Nat.eq_dec s t) as [<-|Nt].
        -- rewrite nth_upd_eq by (rewrite repeat_length; lia). tauto.
        -- rewrite nth_upd_ne by exact Nt. rewrite nth_rep_false. split; [discriminate|intros [X _]; congruence].
      * eapply (Fin _ b _ _ _ Em Hr1); [reflexivity|exact M2|reflexivity|].
        cbn [w_blocks w_recs w_bufs r_ptrs r_size r_touched]. rewrite upd_upd. eapply update_arr; eauto.
        split; [exact C1|]. split; [exact M1|]. split; [apply repeat_length|]. split; [reflexivity|]. split; [exact M10|].
        cbn [l_cur]. split; [exact Ls|]. split; [exists b; split; [exact M2|exact M3]|]. split.
        -- intros t. cbn [r_touched l_dirty]. rewrite nth_rep_false. split; [discriminate|intros [_ X]; discriminate].
        -- intros N2 _ t Lt. assert (Tt : t = s \/ t = l) by lia. destruct Tt as [->| ->]; [exists b; split; [exact M2|exact M3]|].
           exists b1. split; [apply M5; exact M4|exact M4'].
    + rewrite orb_false_r in Ok1. apply Nat.leb_le in Ok1. destruct (D4 Ok1 eq_refl s Ls) as (b & Hp & Hb).
      assert (Em : manager_move n w i s = Ok (w, b)).
      { unfold manager_move. rewrite (live_some Hr). cbn [bind]. rewrite C4. cbn [nonnull bind]. destruct (Nat.eqb_spec l s) as [|_]; [contradiction|].
        rewrite (aget_some Hp). cbn [bind]. rewrite (live_some Hr). cbn [bind]. rewrite touched_get by lia. cbn [bind].
        destruct (nth l (r_touched r) false) eqn:X; [apply D3 in X; destruct X; discriminate|reflexivity]. }
      assert (Nt : forall t, nth t (r_touched r) false = false).
      { intros t. destruct (nth t (r_touched r) false) eqn:X; [apply D3 in X; destruct X; discriminate|reflexivity]. }
      destruct (negb (h_const h) && touch)%bool eqn:Et.
      * eapply (Fin w b r _ _ Em Hr); [apply aset_ok; lia|exact Hp|reflexivity|].
        eapply update_arr; eauto.
        -- intros b' k H. right. eapply nth_lt; exact H.
        -- split; [exact C1|]. split; [exact C2|]. split; [cbn; rewrite upd_length; exact C3|]. split; [reflexivity|]. split; [exact C5|].
           cbn [l_cur]. split; [exact Ls|]. split; [exists b; split; [exact Hp|exact Hb]|]. split; [|discriminate].
           intros t. cbn [r_touched l_dirty]. destruct (Nat.eq_dec s t) as [<-|Nt'].
           ++ rewrite nth_upd_eq by lia. tauto.
           ++ rewrite nth_upd_ne by exact Nt'. rewrite Nt. split; [discriminate|intros [X _]; congruence].
      * eapply (Fin w b r _ _ Em Hr); [reflexivity|exact Hp|reflexivity|].
        eapply update_arr; eauto.
        -- intros b' k H. right. eapply nth_lt; exact H.
        -- split; [exact C1|]. split; [exact C2|]. split; [exact C3|]. split; [reflexivity|]. split; [exact C5|].
           cbn [l_cur]. split; [exact Ls|]. split; [exists b; split; [exact Hp|exact Hb]|]. split.
           ++ intros t. cbn [r_touched l_dirty]. rewrite Nt. split; [discriminate|intros [_ X]; discriminate].
           ++ intros N2 _ t Lt. exact (D4 N2 eq_refl t Lt).
Qed.

Lemma upd_app_l A (l l' : list A) i x : i < length l -> upd (l ++ l') i x = upd l i x ++ l'.
Proof. revert i. induction l as [|y l IH]; intros [|i] H; cbn in *; try lia; [reflexivity|]. f_equal. apply IH. lia. Qed.
Lemma upd_app_last A (l : list A) x y : upd (l ++ [x]) (length l) y = l ++ [y].
Proof. induction l as [|z l IH]; cbn; [reflexivity|]. f_equal. exact IH. Qed.

Lemma step_free st w m h i a : R st w -> nth_error (s_hs st) m = Some h -> arr_of st h = Some (i, a) ->
  exists w', chai_free w m = Ok w' /\ R (mkS (put (s_arrs st) i None) (put (s_hs st) m (gone h))) w'.
Proof.
  intros HR Hh Ha. apply arr_of_inv in Ha. destruct Ha as [Hi Ha]. destruct (R_buf HR Hh) as (c & Hc & (Q1 & Q2 & Q3)).
  destruct (R_arr HR Ha) as (r & Hr & Ra). unfold chai_free. rewrite (aget_some Hc). cbn [bind]. rewrite Q1, Hi. cbn [nonnull bind].
  destruct (kill_arr HR Ha Hr) as (w1 & E & _ & _ & _ & HR1). rewrite E. cbn [bind].
  destruct (@set_handle _ w1 m (gone h) (null_buf c) HR1) as (w' & E1 & _ & _ & _ & HR'); [eapply nth_lt; exact Hh| |eauto].
  split; [reflexivity|]. split; [exact Q2|]. intros j Hj. discriminate.
Qed.

Lemma step_realloc st w m h i a size s cap : R st w -> nth_error (s_hs st) m = Some h -> arr_of st h = Some (i, a) -> s < n ->
  (size = 0 \/ (s = 0 /\ h_space h = Some 0 /\ l_cur a = Some 0 /\ size <= length (l_vals a))) ->
  let kept := firstn (Nat.min cap size) (l_vals a) in
  exists w', chai_reallocate n w m size s cap = Ok w' /\
    R (mkS (put (s_arrs st) i None ++ [Some (mkL (kept ++ repeat None (cap - length kept)) (Some s) true)])
           (put (s_hs st) m (mkH (Some (length (s_arrs st))) (Some s) (h_const h)))) w'.
Proof.
  intros HR Hh Ha Ls Hsz kept. pose proof (arr_of_inv Ha) as [Hi Ha']. destruct (R_buf HR Hh) as (c & Hc & (Q1 & Q2 & Q3)).
  destruct (R_arr HR Ha') as (r & Hr & Ra). pose proof Ra as (C1 & C2 & C3 & C4 & C5 & C6). pose proof HR as [(L & _) F].
  pose proof (nth_lt Hr) as Lr. pose proof (nth_lt Hh) as Lm. pose proof (nth_lt Ha') as Li. pose proof (F2_len F) as LF.
  destruct (Q3 i Hi) as [_ Q4]. destruct (Q4 a r Ha' Hr) as [Cap Q5].
  set (b := length (w_blocks w)). set (nri := length (w_recs w)). set (vals := kept ++ repeat None (cap - length kept)).
  set (nr := mkRec cap (upd (repeat None n) s (Some b)) (repeat false n) None).
  set (w2 := mkWorld (w_blocks w ++ [Some (mkBlock s vals)]) (w_recs w ++ [Some nr]) (w_bufs w)).
  assert (Lk : length kept <= cap) by (unfold kept; rewrite firstn_length; lia).
  assert (Lv : length vals = cap) by (unfold vals; rewrite app_length, repeat_length; lia).
  assert (Pn : forall t b', ptr nr t b' <-> t = s /\ b' = b).
  { intros t b'. unfold ptr, nr. cbn [r_ptrs]. rewrite nth_upd by (rewrite repeat_length; exact Ls). destruct (Nat.eqb_spec s t) as [->|Nt].
    - split; [intros E; injection E as <-; auto|intros [_ ->]; reflexivity].
    - split; [|intros [-> _]; congruence]. intros E. apply nth_error_In, repeat_spec in E. discriminate. }
  assert (HR2 : R (mkS (s_arrs st ++ [Some (mkL vals None false)]) (s_hs st)) w2).
  { apply push_arr.
    - exact HR.
    - intros b' H. apply nth_app_lt. exact H.
    - intros t b' H. apply Pn in H. destruct H as [_ ->]. reflexivity.
    - intros t t' b' H H'. apply Pn in H, H'. destruct H, H'. congruence.
    - intros b' k H. apply nth_lt in H. rewrite app_length in H. cbn in H. destruct (Nat.eq_dec b' b) as [->|]; [left; exists s; apply Pn; auto|right; unfold b in *; lia].
    - split; [symmetry; exact Lv|]. split; [cbn; rewrite upd_length; apply repeat_length|]. split; [apply repeat_length|]. split; [reflexivity|]. split.
      + intros t b' H. apply Pn in H. destruct H as [-> ->]. exists vals. split; [apply nth_app_last|reflexivity].
      + cbn [l_cur r_touched nr]. intros t. apply nth_rep_false. }
  unfold chai_reallocate. rewrite (aget_some Hc). cbn [bind]. rewrite Q1, Hi. cbn [nonnull bind]. rewrite (live_some Hr). cbn [bind].
  fold nri. unfold manager_allocate at 1. cbn [w_recs w_blocks w_bufs]. fold nri. unfold nri at 1. erewrite live_some by apply nth_app_last. cbn [bind r_ptrs r_size r_touched r_last].
  rewrite aset_ok by (rewrite repeat_length; exact Ls). cbn [bind]. unfold nri at 1. erewrite aset_some by apply nth_app_last. cbn [bind].
  rewrite upd_app_last. fold b. fold nr.
  match goal with |- exists w', (w2 <- ?m ;; _) = _ /\ _ => assert (Ew : m = Ok w2) end.
  { destruct (Nat.ltb_spec 0 size) as [Sp|Sz].
    - destruct Hsz as [->|(-> & Hs & Hcur & Hle)]; [lia|]. cbn [Nat.eqb negb error_if bind]. rewrite Hs in Q5. destruct Q5 as (p & Hp & Ep). rewrite Ep. cbn [nonnull bind w_blocks].
      rewrite Hcur in C6. destruct C6 as (D1 & (b0 & Hp0 & Hb0) & _). assert (b0 = p) by (unfold ptr in *; congruence). subst b0.
      erewrite live_some by (rewrite nth_app_lt by (eapply blk_lt; exact Hb0); exact Hb0). cbn [bind k_space k_data].
      replace (size <=? length (l_vals a)) with true by (symmetry; apply Nat.leb_le; exact Hle). cbn [Nat.eqb andb bind].
      unfold b. erewrite live_some by apply nth_app_last. cbn [bind k_space k_data]. erewrite aset_some by apply nth_app_last. cbn [bind w_recs w_bufs]. rewrite upd_app_last.
      assert (Ev : firstn (Nat.min cap size) (l_vals a) ++ skipn (Nat.min cap size) (repeat None cap) = vals).
      { unfold vals. fold kept. f_equal. assert (length kept = Nat.min cap size) as -> by (unfold kept; rewrite firstn_length; lia).
        assert (G : forall k j, skipn j (repeat (@None V) k) = repeat None (k - j)). { clear. induction k as [|k IH]; intros [|j]; cbn; auto. } apply G. }
      rewrite Ev. reflexivity.
    - unfold w2. assert (size = 0) as -> by lia. do 5 f_equal. unfold vals, kept. rewrite Nat.min_0_r. cbn. rewrite Nat.sub_0_r. reflexivity. }
  rewrite Ew. cbn [bind]. clear Ew.
  assert (Ha2 : nth_error (s_arrs st ++ [Some (mkL vals None false)]) i = Some (Some a)) by (rewrite nth_app_lt by exact Li; exact Ha').
  assert (Hr2 : rec_at w2 i r) by (unfold rec_at, w2; cbn [w_recs]; rewrite nth_app_lt by exact Lr; exact Hr).
  assert (Hc2 : nth_error (w_bufs w2) m = Some c) by exact Hc.
  unfold chai_free. rewrite (aget_some Hc2). cbn [bind]. rewrite Q1, Hi. cbn [nonnull bind].
  destruct (kill_arr HR2 Ha2 Hr2) as (w3 & E3 & B3 & K3 & O3 & HR3). rewrite E3. cbn [bind s_arrs s_hs] in *.
  destruct (@set_handle _ w3 m (gone h) (null_buf c) HR3 Lm) as (w4 & E4 & F4 & K4 & B4 & HR4).
  { split; [reflexivity|]. split; [exact Q2|]. intros j Hj. discriminate. }
  rewrite E4. cbn [bind s_arrs s_hs] in *.
  rewrite put_upd in HR4 by (rewrite app_length; lia). rewrite upd_app_l in HR4 by exact Li. rewrite <- put_upd in HR4 by exact Li.
  assert (Lp : length (put (s_arrs st) i None) = nri) by (rewrite put_upd by exact Li; rewrite upd_length; unfold nri; congruence).
  assert (Hr4 : rec_at w4 nri nr).
  { unfold rec_at. rewrite K4, K3. unfold w2. cbn [w_recs]. rewrite nth_error_upd_ne by (unfold nri; lia). apply nth_app_last. }
  assert (Hb4 : blk w4 b (mkBlock s vals)).
  { unfold blk. rewrite F4, O3; [apply nth_app_last|]. intros t Hp. destruct (C5 t b Hp) as (d & Hb & _). apply blk_lt in Hb. unfold b in Hb. lia. }
  destruct (@set_handle _ w4 m (mkH (Some nri) (Some s) (h_const h)) (mkBuf (Some b) cap (Some nri) (c_const c)) HR4) as (w5 & E5 & F5 & K5 & B5 & HR5).
  { cbn [s_hs]. rewrite put_upd by exact Lm. rewrite upd_length. exact Lm. }
  { split; [reflexivity|]. split; [exact Q2|]. cbn [h_arr s_arrs]. intros j Hj. injection Hj as <-. rewrite app_length, Lp. split; [cbn; lia|].
    intros aj rj Haj Hrj. rewrite <- Lp in Haj at 1. rewrite nth_app_last in Haj. injection Haj as <-. unfold rec_at in Hrj, Hr4. rewrite Hr4 in Hrj. injection Hrj as <-.
    split; [cbn; congruence|]. cbn [h_space]. exists b. split; [apply Pn; auto|reflexivity]. }
  cbn [s_arrs s_hs] in HR5. rewrite E5. cbn [bind].
  unfold chai_touch. rewrite B5. assert (L4 : length (w_bufs w4) = length (w_bufs w)) by (rewrite B4, upd_length, B3; reflexivity).
  erewrite aget_some by (apply nth_error_upd_eq; lia). cbn [bind c_rec nonnull]. rewrite K5. rewrite (live_some Hr4). cbn [bind].
  rewrite aset_ok by (cbn; rewrite repeat_length; exact Ls). cbn [bind]. rewrite (aset_some _ Hr4). cbn [bind]. eexists. split; [reflexivity|].
  assert (Hr5 : rec_at w5 nri nr) by (unfold rec_at; rewrite K5; exact Hr4).
  assert (Ha5 : nth_error (put (s_arrs st) i None ++ [Some (mkL vals None false)]) nri = Some (Some (mkL vals None false))) by (rewrite <- Lp; apply nth_app_last).
  pose proof (@update_arr _ w5 nri (mkL vals None false) (mkL vals (Some s) true) nr
    (mkRec cap (upd (repeat None n) s (Some b)) (upd (repeat false n) s true) (Some s)) (w_blocks w5) HR5 Ha5 Hr5) as U. cbn zeta in U. cbn [s_arrs s_hs] in U.

  rewrite K5 in U. replace (length (s_arrs st)) with nri by (unfold nri; congruence).
  rewrite (@put_upd _ (put (s_arrs st) i None ++ _)) in U by (rewrite app_length, Lp; cbn; lia).
  replace (upd (put (s_arrs st) i None ++ [Some (mkL vals None false)]) nri (Some (mkL vals (Some s) true)))
    with (put (s_arrs st) i None ++ [Some (mkL vals (Some s) true)]) in U by (rewrite <- Lp; rewrite upd_app_last; reflexivity).
  rewrite (@put_upd _ (s_hs st)) in U by exact Lm. rewrite (@put_upd _ (upd _ _ _)) in U by (rewrite upd_length; exact Lm). rewrite upd_upd in U.
  rewrite (@put_upd _ (s_hs st)) by exact Lm. rewrite <- B5. cbn [r_size r_ptrs r_touched nr]. apply U; clear U.
  - reflexivity.
  - auto.
  - auto.
  - intros t t' b' H H'. change (ptr nr t b') in H. change (ptr nr t' b') in H'. apply Pn in H, H'. destruct H, H'. congruence.
  - auto.
  - intros b' k H. right. eapply nth_lt; exact H.
  - assert (Hb5 : nth_error (w_blocks w5) b = Some (Some (mkBlock s vals))) by (rewrite F5; exact Hb4).
    split; [symmetry; exact Lv|]. split; [cbn; rewrite upd_length; apply repeat_length|]. split; [cbn; rewrite upd_length; apply repeat_length|]. split; [reflexivity|]. split.
    + intros t b' H. change (ptr nr t b') in H. apply Pn in H. destruct H as [-> ->]. exists vals. split; [exact Hb5|reflexivity].
    + cbn [l_cur]. split; [exact Ls|]. split; [exists b; split; [change (ptr nr s b); apply Pn; auto|exact Hb5]|]. split; [|discriminate].
      intros t. cbn [r_touched l_dirty]. destruct (Nat.eq_dec s t) as [<-|Nt].
      * rewrite nth_upd_eq by (rewrite repeat_length; lia). tauto.
      * rewrite nth_upd_ne by exact Nt. rewrite nth_rep_false. split; [discriminate|intros [X _]; congruence].
Qed.

Lemma eqo_some o s : eqo o s = true -> o = Some s.
Proof. destruct o as [x|]; cbn; [|discriminate]. intros H. apply Nat.eqb_eq in H. congruence. Qed.

Lemma step_write st w m h k a i s v : R st w -> nth_error (s_hs st) m = Some h -> arr_of st h = Some (k, a) ->
  h_space h = Some s -> l_cur a = Some s -> l_dirty a = true -> i < length (l_vals a) ->
  exists w', chai_write w m i s v = Ok w' /\ R (mkS (put (s_arrs st) k (Some (mkL (put (l_vals a) i (Some v)) (l_cur a) true))) (s_hs st)) w'.
Proof.
  intros HR Hh Ha Hs Hcur Hd Lv. apply arr_of_inv in Ha. destruct Ha as [Hi Ha]. destruct (R_buf HR Hh) as (c & Hc & (Q1 & Q2 & Q3)).
  destruct (R_arr HR Ha) as (r & Hr & Ra). pose proof Ra as (C1 & C2 & C3 & C4 & C5 & C6). rewrite Hcur in *. destruct C6 as (D1 & (b & Hp & Hb) & D3 & D4).
  destruct (Q3 k Hi) as [_ Q4]. destruct (Q4 a r Ha Hr) as [Cap Q5]. rewrite Hs in Q5. destruct Q5 as (p & Hp' & Ep). assert (p = b) by (unfold ptr in *; congruence). subst p.
  pose proof (blk_lt Hb) as Lb. assert (Dst : forall t t' b, ptr r t b -> ptr r t' b -> t = t') by (intros t t' b'; apply (R_dist HR Hr)).
  unfold chai_write. rewrite (aget_some Hc). cbn [bind]. rewrite Ep. cbn [nonnull bind]. rewrite (live_some Hb). cbn [bind k_space k_data]. rewrite Nat.eqb_refl. cbn [bind].
  rewrite aset_ok by exact Lv. cbn [bind]. rewrite (aset_some _ Hb). cbn [bind]. eexists. split; [reflexivity|].
  assert (Er : upd (w_recs w) k (Some r) = w_recs w).
  { revert Hr. unfold rec_at. generalize (w_recs w). clear. intros l. revert k. induction l as [|x l IH]; intros [|k] H; cbn in *; try discriminate; [congruence|]. f_equal. apply IH. exact H. }
  rewrite <- Er. rewrite (@put_upd _ (l_vals a)) by exact Lv. eapply update_arr; eauto.
  - cbn. apply upd_length.
  - intros b' _ H. apply nth_error_upd_ne. intros ->. exact (H s Hp).
  - intros b' k' H. right. apply nth_lt in H. rewrite upd_length in H. exact H.
  - split; [cbn; rewrite upd_length; exact C1|]. split; [exact C2|]. split; [exact C3|]. split; [exact C4|]. cbn [l_vals l_cur]. rewrite upd_length. split.
    + intros t b' H. unfold blk. cbn [w_blocks]. rewrite nth_upd by exact Lb. destruct (Nat.eqb_spec b b') as [->|Nb]; [|apply C5; exact H].
      rewrite (Dst _ _ _ Hp H). eexists. split; [reflexivity|]. apply upd_length.
    + split; [exact D1|]. split; [exists b; split; [exact Hp|]; unfold blk; cbn [w_blocks]; apply nth_error_upd_eq; exact Lb|]. split; [|discriminate].
      intros t. cbn [l_dirty]. rewrite D3, Hd. reflexivity.
Qed.

Lemma step_read st w m h k a i s v : R st w -> nth_error (s_hs st) m = Some h -> arr_of st h = Some (k, a) ->
  h_space h = Some s -> l_cur a = Some s -> nth_error (l_vals a) i = Some (Some v) -> chai_read w m i s = Ok v.
Proof.
  intros HR Hh Ha Hs Hcur Hv. apply arr_of_inv in Ha. destruct Ha as [Hi Ha]. destruct (R_buf HR Hh) as (c & Hc & (Q1 & Q2 & Q3)).
  destruct (R_arr HR Ha) as (r & Hr & Ra). pose proof Ra as (C1 & C2 & C3 & C4 & C5 & C6). rewrite Hcur in *. destruct C6 as (D1 & (b & Hp & Hb) & D3 & D4).
  destruct (Q3 k Hi) as [_ Q4]. destruct (Q4 a r Ha Hr) as [Cap Q5]. rewrite Hs in Q5. destruct Q5 as (p & Hp' & Ep). assert (p = b) by (unfold ptr in *; congruence). subst p.
  unfold chai_read. rewrite (aget_some Hc). cbn [bind]. rewrite Ep. cbn [nonnull bind]. rewrite (live_some Hb). cbn [bind k_space k_data]. rewrite Nat.eqb_refl. cbn [bind].
  rewrite (aget_some Hv). reflexivity.
Qed.

Theorem step_refines o st w st' x : R st w -> spec_step n o st = Some (st', x) ->
  exists w', chai_step n o w = Ok (w', x) /\ R st' w'.
Proof.
  intros HR E. destruct o as [|h es|h|h|d s|d s|h s touch|h s|h size s cap|h|h i s v|h i s]; cbn [spec_step chai_step] in *.
  - injection E as <- <-. eexists. split; [reflexivity|]. apply step_new. exact HR.
  - destruct (nth_error (s_hs st) h) as [hh|] eqn:Hh; [|discriminate]. destruct (spec_move _ _ _ _ _) as [st1|] eqn:Em; [|discriminate]. injection E as <- <-.
    destruct (R_buf HR Hh) as (c & Hc & Rh). unfold chai_copy. rewrite (aget_some Hc). cbn [bind].
    replace (length (w_bufs w)) with (length (s_hs st)) by (destruct HR as [_ F]; exact (F2_len F)).
    destruct (step_move (push_handle HR Rh) Em) as (w' & Ew & HR'). rewrite Ew. cbn. eauto.
  - destruct (nth_error (s_hs st) h) as [hh|] eqn:Hh; [|discriminate]. injection E as <- <-.
    destruct (R_buf HR Hh) as (c & Hc & (Q1 & Q2 & Q3)). unfold chai_const. rewrite (aget_some Hc). cbn. eexists. split; [reflexivity|].
    apply push_handle; [exact HR|]. split; [exact Q1|]. split; [reflexivity|]. exact Q3.
  - destruct (nth_error (s_hs st) h) as [hh|] eqn:Hh; [|discriminate]. injection E as <- <-. pose proof (nth_lt Hh) as Lh.
    destruct (R_buf HR Hh) as (c & Hc & Rh). unfold chai_steal. rewrite (aget_some Hc). cbn [bind].
    destruct (@set_handle _ _ h (gone hh) (null_buf c) (push_handle HR Rh)) as (w' & Ew & _ & _ & _ & HR').
    { cbn. rewrite app_length. lia. }
    { destruct Rh as (Q1 & Q2 & Q3). split; [reflexivity|]. split; [exact Q2|]. intros j Hj. discriminate. }
    rewrite Ew. cbn. eexists. split; [reflexivity|]. cbn [s_arrs s_hs] in HR'. rewrite put_upd in HR' by (rewrite app_length; lia). rewrite upd_app_l in HR' by exact Lh.
    rewrite put_upd by exact Lh. exact HR'.
  - destruct (nth_error (s_hs st) d) as [hd|] eqn:Hd; [|discriminate]. destruct (nth_error (s_hs st) s) as [hs|] eqn:Hs; [|discriminate].
    destruct (eqb _ _); [|discriminate]. injection E as <- <-. destruct (R_buf HR Hs) as (c & Hc & Rh). unfold chai_assign. rewrite (aget_some Hc). cbn [bind].
    destruct (@set_handle _ _ d hs c HR (nth_lt Hd) Rh) as (w' & Ew & _ & _ & _ & HR'). rewrite Ew. cbn. eauto.
  - destruct (nth_error (s_hs st) d) as [hd|] eqn:Hd; [|discriminate]. destruct (nth_error (s_hs st) s) as [hs|] eqn:Hs; [|discriminate].
    destruct (eqb _ _); [|discriminate]. injection E as <- <-. destruct (R_buf HR Hs) as (c & Hc & Rh). unfold chai_move_assign. rewrite (aget_some Hc). cbn [bind].
    destruct (@set_handle _ _ d hs c HR (nth_lt Hd) Rh) as (w1 & Ew & _ & _ & _ & HR1). rewrite Ew. cbn [bind].
    destruct (@set_handle _ _ s (gone hs) (null_buf c) HR1) as (w' & Ew' & _ & _ & _ & HR').
    { cbn. rewrite put_upd by (eapply nth_lt; exact Hd). rewrite upd_length. eapply nth_lt; exact Hs. }
    { destruct Rh as (Q1 & Q2 & Q3). split; [reflexivity|]. split; [exact Q2|]. intros j Hj. discriminate. }
    rewrite Ew'. cbn. eauto.
  - destruct (spec_move _ _ _ _ _) as [st1|] eqn:Em; [|discriminate]. injection E as <- <-. destruct (step_move HR Em) as (w' & Ew & HR'). rewrite Ew. cbn. eauto.
  - destruct (nth_error (s_hs st) h) as [hh|] eqn:Hh; [|discriminate]. destruct (arr_of st hh) as [[i a]|] eqn:Ha; [|discriminate].
    destruct (eqo (l_cur a) s) eqn:Ec; [|discriminate]. injection E as <- <-. destruct (step_touch HR Hh Ha Ec) as (w' & Ew & HR'). rewrite Ew. cbn. eauto.
  - destruct (nth_error (s_hs st) h) as [hh|] eqn:Hh; [|discriminate]. destruct (arr_of st hh) as [[i a]|] eqn:Ha; [|discriminate].
    match type of E with (if ?b then _ else _) = _ => destruct b eqn:Ec; [|discriminate] end. injection E as <- <-.
    apply andb_prop in Ec. destruct Ec as [Ec E3]. apply andb_prop in Ec. destruct Ec as [E1 E2]. apply Nat.ltb_lt in E1.
    destruct (@step_realloc st w h hh i a size s cap HR Hh Ha E1) as (w' & Ew & HR').
    { apply orb_prop in E3. destruct E3 as [E3|E3]; [left; apply Nat.eqb_eq; exact E3|right].
      apply andb_prop in E3. destruct E3 as [E3 E4]. apply andb_prop in E3. destruct E3 as [E3 E5]. apply andb_prop in E3. destruct E3 as [E3 E6].
      split; [apply Nat.eqb_eq; exact E3|]. split; [apply eqo_some; exact E6|]. split; [apply eqo_some; exact E5|apply Nat.leb_le; exact E4]. }
    rewrite Ew. cbn [plain bind]. eauto.
  - destruct (nth_error (s_hs st) h) as [hh|] eqn:Hh; [|discriminate]. destruct (arr_of st hh) as [[i a]|] eqn:Ha; [|discriminate].
    injection E as <- <-. destruct (step_free HR Hh Ha) as (w' & Ew & HR'). rewrite Ew. cbn. eauto.
  - destruct (nth_error (s_hs st) h) as [hh|] eqn:Hh; [|discriminate]. destruct (arr_of st hh) as [[k a]|] eqn:Ha; [|discriminate].
    match type of E with (if ?b then _ else _) = _ => destruct b eqn:Ec; [|discriminate] end. injection E as <- <-.
    apply andb_prop in Ec. destruct Ec as [Ec E1]. apply andb_prop in Ec. destruct Ec as [Ec E2]. apply andb_prop in Ec. destruct Ec as [Ec E3]. apply andb_prop in Ec. destruct Ec as [E5 E4].
    destruct (@step_write st w h hh k a i s v HR Hh Ha (eqo_some E4) (eqo_some E3) E2) as (w' & Ew & HR'); [apply Nat.ltb_lt; exact E1|]. rewrite Ew. cbn [plain bind]. eauto.
  - destruct (nth_error (s_hs st) h) as [hh|] eqn:Hh; [|discriminate]. destruct (arr_of st hh) as [[k a]|] eqn:Ha; [|discriminate].
    match type of E with (if ?b then _ else _) = _ => destruct b eqn:Ec; [|discriminate] end. apply andb_prop in Ec. destruct Ec as [E1 E2].
    destruct (nth_error (l_vals a) i) as [[v|]|] eqn:Ev; try discriminate. injection E as <- <-.
    rewrite (step_read HR Hh Ha (eqo_some E1) (eqo_some E2) Ev). cbn. eauto.
Qed.

Theorem run_refines l : forall st w st' ys, R st w -> spec_run n l st = Some (st', ys) ->
  exists w', chai_run n l w = Ok (w', ys) /\ R st' w'.
Proof.
  induction l as [|o l IH]; intros st w st' ys HR E; cbn [spec_run chai_run] in *.
  - injection E as <- <-. eauto.
  - destruct (spec_step n o st) as [[st1 x]|] eqn:E1; [|discriminate]. destruct (spec_run n l st1) as [[st2 zs]|] eqn:E2; [|discriminate]. injection E as <- <-.
    destruct (step_refines HR E1) as (w1 & Ew & HR1). rewrite Ew. cbn [bind]. destruct (IH _ _ _ _ HR1 E2) as (w2 & Ew2 & HR2). rewrite Ew2. cbn [bind]. eauto.
Qed.

Lemma R_empty : R (spec_empty V) (empty_world V).
Proof.
  split; [|constructor]. split; [reflexivity|]. split; [intros [|i] a H; discriminate|]. split; [intros [|i] H; discriminate|].
  split; [intros [|i] r t i' r' t' b H; discriminate|intros [|b] k H; discriminate].
Qed.
End Chai.
