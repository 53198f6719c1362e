(** Programs over a container in two spaces behave as in one space. *)
From Coq Require Import List Arith Lia Bool.
From Verif Require Import Base BaseProofs Chai ChaiSpec ChaiProofs Spaces SpacesSpec.
Import ListNotations.
Set Implicit Arguments.
Unset Strict Implicit.
Local Arguments chai_reallocate : simpl never.
Local Arguments chai_move : simpl never.

Section Spaces.
Variable X : Type.
Notation world := (world X).
Notation R := (R (V := X) 2).
Notation sstate := (sstate X).

Lemma upd_same A (l : list A) i x : nth_error l i = Some x -> upd l i x = l.
Proof. revert i. induction l as [|y l IH]; intros [|i] H; cbn in *; try discriminate; [congruence|]. f_equal. auto. Qed.

(** What the buffer behind a handle looks like when its array is [a]. *)
Lemma open_buf st w m h k a : R st w -> nth_error (s_hs st) m = Some h -> h_arr h = Some k -> nth_error (s_arrs st) k = Some (Some a) ->
  exists c, nth_error (w_bufs w) m = Some c /\ c_cap c = length (l_vals a) /\
    forall s, h_space h = Some s -> l_cur a = Some s ->
      exists r b, rec_at w k r /\ ptr r s b /\ c_ptr c = Some b /\ blk w b (mkBlock s (l_vals a)).
Proof.
  intros HR Hh Hi Ha. destruct (R_buf HR Hh) as (c & Hc & (Q1 & Q2 & Q3)).
  destruct (R_arr HR Ha) as (r & Hr & Ra). destruct (Q3 k Hi) as [_ Q4]. destruct (Q4 a r Ha Hr) as [Cap Q5].
  exists c. split; [exact Hc|]. split; [exact Cap|]. intros s Hs Hcur.
  pose proof Ra as (C1 & C2 & C3 & C4 & C5 & C6). rewrite Hcur in *. destruct C6 as (D1 & (b & Hp & Hb) & D3 & D4).
  rewrite Hs in Q5. destruct Q5 as (p & Hp' & Ep). assert (p = b) by (unfold ptr in *; congruence). subst p. exists r, b. auto.
Qed.

Lemma fetch_ok st w m h k a s : R st w -> nth_error (s_hs st) m = Some h -> h_arr h = Some k -> nth_error (s_arrs st) k = Some (Some a) ->
  (l_vals a <> [] -> h_space h = Some s /\ l_cur a = Some s) -> fetch w m s = Ok (l_vals a).
Proof.
  intros HR Hh Hi Ha Hs. destruct (open_buf HR Hh Hi Ha) as (c & Hc & Cap & P). unfold fetch. rewrite (aget_some Hc). cbn [bind]. rewrite Cap.
  destruct (l_vals a) as [|x l] eqn:E; [reflexivity|]. cbn [length Nat.eqb].
  destruct Hs as [H1 H2]; [discriminate|]. destruct (P s H1 H2) as (r & b & _ & _ & -> & Hb). cbn [nonnull bind].
  rewrite (live_some Hb). cbn [bind k_space k_data]. rewrite Nat.eqb_refl. reflexivity.
Qed.

Lemma store_same st w m h k a s : R st w -> nth_error (s_hs st) m = Some h -> h_arr h = Some k -> nth_error (s_arrs st) k = Some (Some a) ->
  (l_vals a <> [] -> h_space h = Some s /\ l_cur a = Some s) -> exists w', store w m s (l_vals a) = Ok w' /\ R st w'.
Proof.
  intros HR Hh Hi Ha Hs. destruct (open_buf HR Hh Hi Ha) as (c & Hc & Cap & P). unfold store. rewrite (aget_some Hc). cbn [bind]. rewrite Cap, Nat.eqb_refl. cbn [bind].
  destruct (l_vals a) as [|x l] eqn:E; [exists w; auto|]. cbn [length Nat.eqb].
  destruct Hs as [H1 H2]; [discriminate|]. destruct (P s H1 H2) as (r & b & _ & _ & -> & Hb). cbn [nonnull bind].
  rewrite (live_some Hb). cbn [bind k_space k_data]. rewrite Nat.eqb_refl. cbn [bind]. rewrite (aset_some _ Hb). cbn [bind].
  rewrite (upd_same Hb). exists w. split; [destruct w; reflexivity|exact HR].
Qed.

Lemma store_ok st w m h k a s d : R st w -> nth_error (s_hs st) m = Some h -> h_arr h = Some k -> nth_error (s_arrs st) k = Some (Some a) ->
  h_space h = Some s -> l_cur a = Some s -> l_dirty a = true -> length d = length (l_vals a) ->
  exists w', store w m s d = Ok w' /\ R (mkS (put (s_arrs st) k (Some (mkL d (Some s) true))) (s_hs st)) w'.
Proof.
  intros HR Hh Hi Ha H1 H2 Hd Ld. destruct (open_buf HR Hh Hi Ha) as (c & Hc & Cap & P). destruct (P s H1 H2) as (r & b & Hr & Hp & Ep & Hb).
  unfold store. rewrite (aget_some Hc). cbn [bind]. rewrite Cap, <- Ld, Nat.eqb_refl. cbn [bind].
  destruct (R_arr HR Ha) as (r0 & Hr0 & Ra). assert (r0 = r) by (unfold rec_at in *; congruence). subst r0. clear Hr0.
  pose proof Ra as (C1 & C2 & C3 & C4 & C5 & C6). rewrite H2 in *. destruct C6 as (D1 & _ & D3 & D4).
  assert (Dst : forall t t' b, ptr r t b -> ptr r t' b -> t = t') by (intros t t' b'; apply (R_dist HR Hr)).
  pose proof (blk_lt Hb) as Lb. rewrite Ep. cbn [nonnull bind]. rewrite (live_some Hb). cbn [bind k_space k_data]. rewrite Nat.eqb_refl. cbn [bind]. rewrite (aset_some _ Hb). cbn [bind].
  assert (G : R (mkS (put (s_arrs st) k (Some (mkL d (Some s) true))) (s_hs st))
              (mkWorld (upd (w_blocks w) b (Some (mkBlock s d))) (w_recs w) (w_bufs w))).
  { rewrite <- (upd_same Hr). eapply update_arr; eauto.
    - intros b' _ H. apply nth_error_upd_ne. intros ->. exact (H s Hp).
    - intros b' k' H. right. apply nth_lt in H. rewrite upd_length in H. exact H.
    - split; [cbn; rewrite Ld; exact C1|]. split; [exact C2|]. split; [exact C3|]. split; [exact C4|]. cbn [l_vals l_cur]. rewrite Ld. split.
      + intros t b' H. unfold blk. cbn [w_blocks]. rewrite nth_upd by exact Lb. destruct (Nat.eqb_spec b b') as [->|Nb]; [|apply C5; exact H].
        rewrite (Dst _ _ _ Hp H). eexists. split; [reflexivity|]. exact Ld.
      + split; [exact D1|]. split; [exists b; split; [exact Hp|]; unfold blk; cbn [w_blocks]; apply nth_error_upd_eq; exact Lb|]. split; [|discriminate].
        intros t. cbn [l_dirty]. rewrite D3, Hd. reflexivity. }
  destruct (Nat.eqb_spec (length d) 0) as [E|E]; [|eauto].
  destruct d; [|discriminate]. destruct (l_vals a) as [|x0 l0] eqn:Ev; [|discriminate].
  exists w. split; [reflexivity|]. rewrite (upd_same Hb) in G. destruct w; exact G.
Qed.

(** ** The buffers of a container *)
Record bufst : Type := mkB { b_vals : list (option X); b_own : nat; b_cur : nat; b_mark : bool }.
Definition holds (S : sstate) (i : nat) (b : bufst) : Prop :=
  exists h k a, nth_error (s_hs S) i = Some h /\ h_arr h = Some k /\ nth_error (s_arrs S) k = Some (Some a) /\ h_const h = false /\
    l_vals a = b_vals b /\
    (b_vals b <> [] -> h_space h = Some (b_own b) /\ l_cur a = Some (b_cur b) /\ (b_mark b = true -> l_dirty a = true)).
Definition G (S : sstate) (bs : list bufst) : Prop :=
  (forall i b, nth_error bs i = Some b -> holds S i b) /\
  (forall i j hi hj k, i < length bs -> j < length bs -> nth_error (s_hs S) i = Some hi -> nth_error (s_hs S) j = Some hj ->
     h_arr hi = Some k -> h_arr hj = Some k -> i = j).

(** A step on buffer [i], whose array is [k]. *)
Lemma G_step S S' bs i k h h' k' b' : G S bs -> nth_error (s_hs S) i = Some h -> h_arr h = Some k -> i < length bs ->
  (forall j, j < length bs -> j <> i -> nth_error (s_hs S') j = nth_error (s_hs S) j) ->
  (forall q, q < length (s_arrs S) -> q <> k -> nth_error (s_arrs S') q = nth_error (s_arrs S) q) ->
  nth_error (s_hs S') i = Some h' -> h_arr h' = Some k' -> k' = k \/ length (s_arrs S) <= k' ->
  holds S' i b' -> G S' (upd bs i b').
Proof.
  intros [G1 G2] Hh Hk Li Fh Fa Hh' Hk' Fr H. split.
  - intros j b Hb. rewrite nth_upd in Hb by exact Li. destruct (Nat.eqb_spec i j) as [->|Ne]; [congruence|].
    destruct (G1 j b Hb) as (hj & kj & aj & Q1 & Q2 & Q3 & Q). exists hj, kj, aj. rewrite Fh; [|eapply nth_lt; eauto|auto].
    split; [exact Q1|]. split; [exact Q2|]. split; [|exact Q].
    rewrite Fa; [exact Q3|eapply nth_lt; eauto|]. intros ->. apply Ne. eapply G2; eauto. eapply nth_lt; eauto.
  - rewrite upd_length. intros a b ha hb q La Lb Ha Hb Qa Qb.
    assert (Old : forall j hj, j < length bs -> j <> i -> nth_error (s_hs S') j = Some hj -> h_arr hj = Some q -> q <> k' ).
    { intros j hj Lj Nj Hj Qj ->. rewrite Fh in Hj by assumption.
      destruct (nth_error bs j) as [bj|] eqn:Ej; [|apply nth_error_None in Ej; lia].
      destruct (G1 j bj Ej) as (h2 & k2 & a2 & R1 & R2 & R3 & _). assert (h2 = hj) by congruence. subst h2. assert (k2 = k') by congruence. subst k2.
      destruct Fr as [->|Fr]; [|apply nth_lt in R3; lia]. apply Nj. eapply G2; eauto. }
    destruct (Nat.eq_dec a i) as [->|Na]; destruct (Nat.eq_dec b i) as [->|Nb]; auto.
    + assert (ha = h') by congruence. subst ha. exfalso. eapply (Old b); eauto. congruence.
    + assert (hb = h') by congruence. subst hb. exfalso. eapply (Old a); eauto. congruence.
    + rewrite Fh in Ha by assumption. rewrite Fh in Hb by assumption. eapply G2; eauto.
Qed.
Lemma G_at S bs i b : G S bs -> nth_error bs i = Some b -> holds S i b.
Proof. intros [H _]. apply H. Qed.

(** ** move *)
Lemma move_buf S w bs i b s touch : s < 2 -> R S w -> G S bs -> nth_error bs i = Some b ->
  exists w' S', chai_move 2 w i (Some s) touch = Ok w' /\ R S' w' /\
    G S' (upd bs i (mkB (b_vals b) s s ((b_cur b =? s) && b_mark b || touch)%bool)) /\ length (s_hs S') = length (s_hs S).
Proof.
  intros Ls HR HG Hb. destruct (G_at HG Hb) as (h & k & a & H1 & H2 & H3 & H4 & H5 & H6).
  assert (Sm : exists st', spec_move 2 S i (Some s) touch = Some st' /\ length (s_hs st') = length (s_hs S) /\
     G st' (upd bs i (mkB (b_vals b) s s ((b_cur b =? s) && b_mark b || touch)%bool))).
  { assert (HB : forall (S' : sstate) h' a', (l_vals a <> [] -> S' = mkS (put (s_arrs S) k (Some a')) (put (s_hs S) i h')) -> (l_vals a = [] -> S' = S) ->
       h_arr h' = Some k -> h_const h' = false -> l_vals a' = l_vals a ->
       (l_vals a <> [] -> h_space h' = Some s /\ l_cur a' = Some s /\ (((b_cur b =? s) && b_mark b || touch)%bool = true -> l_dirty a' = true)) ->
       length (s_hs S') = length (s_hs S) /\ G S' (upd bs i (mkB (b_vals b) s s ((b_cur b =? s) && b_mark b || touch)%bool))).
    { intros S' h' a' E1 E2 P1 P2 P3 P4. pose proof (nth_lt H1) as Lh. pose proof (nth_lt H3) as La.
      destruct (l_vals a) as [|x0 l0] eqn:Ev.
      - rewrite (E2 eq_refl). split; [reflexivity|]. eapply G_step; try exact H1; try exact H2; eauto; try (eapply nth_lt; eauto; fail).
        exists h, k, a. rewrite Ev, <- H5. cbn. repeat split; auto; try congruence.
      - rewrite (E1 ltac:(discriminate)). rewrite !put_upd by assumption. split; [cbn; apply upd_length|].
        eapply (G_step (S := S) (h := h) (k := k) (h' := h') (k' := k)); auto; try (eapply nth_lt; eauto; fail).
        + intros j _ Nj. cbn [s_hs]. apply nth_error_upd_ne. auto.
        + intros q _ Nq. cbn [s_arrs]. apply nth_error_upd_ne. auto.
        + cbn [s_hs]. apply nth_error_upd_eq. exact Lh.
        + exists h', k, a'. cbn [s_hs s_arrs]. rewrite nth_error_upd_eq by exact Lh. rewrite nth_error_upd_eq by exact La.
          cbn [b_vals b_own b_cur b_mark]. rewrite P3, <- H5. split; [reflexivity|]. split; [exact P1|]. split; [reflexivity|]. split; [exact P2|]. split; [reflexivity|].
          intros _. apply P4. discriminate. }
    unfold spec_move. rewrite H1. rewrite H2. unfold arr_of. rewrite H2, H3. destruct (l_vals a) as [|x l] eqn:Ev.
    - eexists. split; [reflexivity|]. apply (HB S h a); try tauto; congruence.
    - rewrite <- H5 in H6. destruct H6 as (Q1 & Q2 & Q3); [discriminate|]. rewrite Q2. rewrite H4. cbn [negb andb].
      destruct (Nat.eqb_spec (b_cur b) s) as [->|Nc].
      + eexists. split; [reflexivity|]. eapply HB; [intros _; reflexivity|discriminate|first [reflexivity|exact H2]|reflexivity|reflexivity|].
        intros _. cbn. split; [reflexivity|]. split; [reflexivity|]. intros Hm. destruct (b_mark b); [rewrite Q3 by reflexivity; reflexivity|].
        cbn in Hm. rewrite Hm. apply orb_true_r.
      + apply Nat.ltb_lt in Ls. rewrite Ls. cbn [andb Nat.leb orb].
        eexists. split; [reflexivity|]. eapply HB; [intros _; reflexivity|discriminate|first [reflexivity|exact H2]|reflexivity|reflexivity|].
        intros _. cbn. auto. }
  destruct Sm as (st' & Em & L & HG'). destruct (step_move HR Em) as (w' & Ew & HR'). exists w', st'. auto.
Qed.

Fixpoint zip3 (f : bool -> bufst -> bufst) (ts : list bool) (bs : list bufst) : list bufst :=
  match ts, bs with t :: ts', b :: bs' => f t b :: zip3 f ts' bs' | _, _ => [] end.
Lemma upd_mid A (pre rest : list A) x y : upd (pre ++ x :: rest) (length pre) y = pre ++ y :: rest.
Proof. induction pre; cbn; congruence. Qed.
Lemma nth_mid A (pre rest : list A) x : nth_error (pre ++ x :: rest) (length pre) = Some x.
Proof. rewrite nth_error_app2, Nat.sub_diag by lia. reflexivity. Qed.

Lemma move_all_ok s touch : s < 2 -> forall dev pre rest S w, R S w -> G S (pre ++ rest) -> length rest = length dev ->
  exists w' S', move_all w (length pre) dev s touch = Ok w' /\ R S' w' /\
    G S' (pre ++ zip3 (fun t b => mkB (b_vals b) s s ((b_cur b =? s) && b_mark b || (touch && (t || (s =? 0))))%bool) dev rest) /\
    length (s_hs S') = length (s_hs S).
Proof.
  intros Ls. induction dev as [|t dev IH]; intros pre [|b rest] S w HR HG L; cbn in L; try discriminate.
  - exists w, S. auto.
  - cbn [move_all zip3]. destruct (@move_buf S w _ (length pre) b s (touch && (t || (s =? 0)))%bool Ls HR HG (nth_mid _ _ _)) as (w1 & S1 & E1 & R1 & G1 & L1).
    rewrite E1. cbn [bind]. rewrite upd_mid in G1.
    set (b1 := mkB _ _ _ _) in G1. change (pre ++ b1 :: rest) with (pre ++ [b1] ++ rest) in G1. rewrite app_assoc in G1.
    destruct (IH (pre ++ [b1]) rest S1 w1 R1 G1 ltac:(lia)) as (w2 & S2 & E2 & R2 & G2 & L2).
    rewrite app_length in E2. cbn [length] in E2. rewrite Nat.add_1_r in E2. rewrite E2. exists w2, S2.
    rewrite <- app_assoc in G2. cbn [app] in G2. rewrite L2. auto.
Qed.

(** Only the array changes. *)
Lemma G_arr S bs i b h k a' b' : G S bs -> nth_error bs i = Some b -> nth_error (s_hs S) i = Some h -> h_arr h = Some k -> k < length (s_arrs S) ->
  h_const h = false -> l_vals a' = b_vals b' ->
  (b_vals b' <> [] -> h_space h = Some (b_own b') /\ l_cur a' = Some (b_cur b') /\ (b_mark b' = true -> l_dirty a' = true)) ->
  G (mkS (put (s_arrs S) k (Some a')) (s_hs S)) (upd bs i b').
Proof.
  intros HG Hb Hh Hk La Hc Ev P. rewrite put_upd by exact La. eapply (G_step (S := S) (h := h) (k := k) (h' := h) (k' := k)); auto.
  - eapply nth_lt; eauto.
  - intros q _ Nq. cbn [s_arrs]. apply nth_error_upd_ne. auto.
  - exists h, k, a'. cbn [s_hs s_arrs]. rewrite nth_error_upd_eq by exact La. repeat split; auto; apply P; auto.
Qed.

(** ** registerTouch *)
Lemma touch_buf S w bs i b : R S w -> G S bs -> nth_error bs i = Some b -> b_vals b <> [] ->
  exists w' S', chai_touch w i (b_cur b) = Ok w' /\ R S' w' /\ G S' (upd bs i (mkB (b_vals b) (b_own b) (b_cur b) true)) /\ s_hs S' = s_hs S.
Proof.
  intros HR HG Hb Ne. destruct (G_at HG Hb) as (h & k & a & H1 & H2 & H3 & H4 & H5 & H6). destruct (H6 Ne) as (Q1 & Q2 & Q3).
  assert (Ha : arr_of S h = Some (k, a)) by (unfold arr_of; rewrite H2, H3; reflexivity).
  destruct (@step_touch X 2 S w i h k a (b_cur b) HR H1 Ha) as (w' & Ew & HR'); [rewrite Q2; cbn; apply Nat.eqb_refl|].
  eexists w', _. split; [exact Ew|]. split; [exact HR'|]. split; [|reflexivity].
  eapply G_arr; eauto; try (eapply nth_lt; eauto; fail).
Qed.
Lemma touch_all_ok s : forall rest pre S w, R S w -> G S (pre ++ rest) -> Forall (fun b => b_vals b <> [] /\ b_cur b = s) rest ->
  exists w' S', touch_all w (length pre) (length rest) s = Ok w' /\ R S' w' /\
    G S' (pre ++ map (fun b => mkB (b_vals b) (b_own b) (b_cur b) true) rest) /\ s_hs S' = s_hs S.
Proof.
  induction rest as [|b rest IH]; intros pre S w HR HG F.
  - exists w, S. auto.
  - inversion F as [|? ? [F1 F2] F']; subst. cbn [length touch_all map]. destruct (touch_buf HR HG (nth_mid _ _ _) F1) as (w1 & S1 & E1 & R1 & G1 & L1).
    rewrite E1. cbn [bind]. rewrite upd_mid in G1. set (b1 := mkB _ _ _ _) in G1. change (pre ++ b1 :: rest) with (pre ++ [b1] ++ rest) in G1. rewrite app_assoc in G1.
    destruct (IH (pre ++ [b1]) S1 w1 R1 G1 F') as (w2 & S2 & E2 & R2 & G2 & L2). rewrite app_length in E2. cbn [length] in E2. rewrite Nat.add_1_r in E2. rewrite E2.
    exists w2, S2. rewrite <- app_assoc in G2. cbn [app] in G2. rewrite L2. auto.
Qed.

(** ** Writing a marked buffer, or what it holds already *)
Lemma store_buf S w bs i b s d v hv hi k : R S w -> G S bs -> nth_error bs i = Some b ->
  nth_error (s_hs S) v = Some hv -> nth_error (s_hs S) i = Some hi -> h_arr hv = Some k -> h_arr hi = Some k ->
  (b_vals b <> [] -> h_space hv = Some s) -> b_cur b = s ->
  length d = length (b_vals b) -> b_mark b = true \/ d = b_vals b ->
  exists w' S', store w v s d = Ok w' /\ R S' w' /\ G S' (upd bs i (mkB d (b_own b) (b_cur b) (b_mark b))) /\ s_hs S' = s_hs S.
Proof.
  intros HR HG Hb Hv Hi Kv Ki Sp Cu Ld Md. destruct (G_at HG Hb) as (h & k0 & a & H1 & H2 & H3 & H4 & H5 & H6).
  assert (h = hi) by congruence. subst h. assert (k0 = k) by congruence. subst k0.
  assert (Same : d = b_vals b -> exists w' S', store w v s d = Ok w' /\ R S' w' /\ G S' (upd bs i (mkB d (b_own b) (b_cur b) (b_mark b))) /\ s_hs S' = s_hs S).
  { intros ->. rewrite <- H5. destruct (store_same (s := s) HR Hv Kv H3) as (w' & E & HR').
    { rewrite H5. intros Ne. split; [auto|]. destruct (H6 Ne) as (_ & Q & _). congruence. }
    exists w', S. split; [exact E|]. split; [exact HR'|]. split; [|reflexivity]. rewrite upd_same; [exact HG|]. rewrite H5. destruct b; exact Hb. }
  destruct Md as [Md|Md]; [|auto]. destruct (b_vals b) as [|x l] eqn:Ev; [destruct d; [auto|discriminate]|].
  rewrite <- Ev in *. assert (Ne : b_vals b <> []) by congruence. destruct (H6 Ne) as (Q1 & Q2 & Q3).
  destruct (store_ok (s := s) (d := d) HR Hv Kv H3) as (w' & E & HR'); [auto|congruence|auto|congruence|].
  eexists w', _. split; [exact E|]. split; [exact HR'|]. split; [|reflexivity].
  eapply G_arr; eauto; try (eapply nth_lt; eauto; fail). cbn. intros _. split; [exact Q1|]. split; [congruence|]. auto.
Qed.

(** ** Host methods *)
Lemma put_back_buf S w bs i b d t : R S w -> G S bs -> nth_error bs i = Some b -> b_own b = 0 -> b_cur b = 0 ->
  covered (b_mark b) t (b_vals b) d ->
  exists w' S', put_back w i d t = Ok w' /\ R S' w' /\
    G S' (upd bs i (mkB d 0 0 (b_mark b || t || negb (length (b_vals b) =? length d))%bool)) /\ length (s_hs S') = length (s_hs S).
Proof.
  intros HR HG Hb Ow Cu [Cv Ct]. pose proof (nth_lt Hb) as Li. destruct (G_at HG Hb) as (h & k & a & H1 & H2 & H3 & H4 & H5 & H6).
  destruct (open_buf HR H1 H2 H3) as (c & Hc & Cap & _). unfold put_back. rewrite (aget_some Hc). cbn [bind]. rewrite Cap, H5.
  assert (St : forall S1 w1 b1, R S1 w1 -> G S1 (upd bs i b1) -> b_own b1 = 0 -> b_cur b1 = 0 -> length d = length (b_vals b1) ->
    (t = false -> b_mark b1 = true \/ d = b_vals b1) ->
    exists w' S', (w2 <- (if t then chai_touch w1 i 0 else Ok w1) ;; store w2 i 0 d) = Ok w' /\ R S' w' /\
      G S' (upd bs i (mkB d 0 0 (b_mark b1 || t))) /\ length (s_hs S') = length (s_hs S1)).
  { intros S1 w1 b1 R1 G1 O1 C1 L1 M1. assert (N1 : nth_error (upd bs i b1) i = Some b1) by (apply nth_error_upd_eq; exact Li).
    assert (Fin : forall S2 w2 b2, R S2 w2 -> G S2 (upd bs i b2) -> b_own b2 = 0 -> b_cur b2 = 0 -> b_vals b2 = b_vals b1 -> b_mark b2 = (b_mark b1 || t)%bool ->
        b_mark b2 = true \/ d = b_vals b2 -> length (s_hs S2) = length (s_hs S1) ->
        exists w' S', store w2 i 0 d = Ok w' /\ R S' w' /\ G S' (upd bs i (mkB d 0 0 (b_mark b1 || t))) /\ length (s_hs S') = length (s_hs S1)).
    { intros S2 w2 b2 R2 G2 O2 C2 V2 M2 D2 LL. assert (N2 : nth_error (upd bs i b2) i = Some b2) by (apply nth_error_upd_eq; exact Li).
      destruct (G_at G2 N2) as (h2 & k2 & a2 & P1 & P2 & P3 & P4 & P5 & P6).
      destruct (@store_buf S2 w2 (upd bs i b2) i b2 0 d i h2 h2 k2 R2 G2 N2 P1 P1 P2 P2) as (w' & S' & E & R' & G' & L'); auto.
      - intros Ne. destruct (P6 Ne) as (Q & _). congruence.
      - congruence.
      - exists w', S'. rewrite upd_upd in G'. rewrite O2, C2, M2 in G'. rewrite L'. auto. }
    destruct t.
    - assert (Ne : b_vals b1 <> []). { intros E. rewrite E in L1. apply (Ct eq_refl). destruct d; [reflexivity|discriminate]. }
      destruct (touch_buf R1 G1 N1 Ne) as (w2 & S2 & E2 & R2 & G2 & L2). rewrite C1 in E2. rewrite E2. cbn [bind]. rewrite upd_upd in G2.
      apply (Fin S2 w2 _ R2 G2); cbn; auto; [symmetry; apply orb_true_r|congruence].
    - cbn [bind]. apply (Fin S1 w1 b1); auto. symmetry. apply orb_false_r. }
  destruct (Nat.eqb_spec (length (b_vals b)) (length d)) as [El|Nl]; cbn [negb].
  - cbn [bind]. rewrite orb_false_r. destruct (St S w b) as (w' & S' & E & R' & G' & L'); auto.
    + rewrite upd_same by exact Hb. exact HG.
    + intros ->. destruct Cv as [?|[?|[?|?]]]; [auto|discriminate|contradiction|auto].
    + exists w', S'. auto.
  - assert (Ha : arr_of S h = Some (k, a)) by (unfold arr_of; rewrite H2, H3; reflexivity).
    destruct (@step_realloc X 2 S w i h k a 0 0 (length d) HR H1 Ha ltac:(lia) (or_introl eq_refl)) as (w1 & E1 & R1).
    rewrite Nat.min_0_r in R1. cbn [firstn length app] in R1. rewrite Nat.sub_0_r in R1. rewrite E1. cbn [bind].
    set (S1 := mkS _ _) in R1.
    assert (G1 : G S1 (upd bs i (mkB (repeat None (length d)) 0 0 true))).
    { pose proof (nth_lt H1) as Lh. pose proof (nth_lt H3) as La. subst S1. rewrite !put_upd by assumption.
      eapply (G_step (S := S) (h := h) (k := k) (h' := mkH (Some (length (s_arrs S))) (Some 0) (h_const h)) (k' := length (s_arrs S))); auto.
      - intros j _ Nj. cbn [s_hs]. apply nth_error_upd_ne. auto.
      - intros q Lq Nq. cbn [s_arrs]. rewrite nth_error_app1 by (rewrite upd_length; exact Lq). apply nth_error_upd_ne. auto.
      - cbn [s_hs]. apply nth_error_upd_eq. exact Lh.
      - eexists _, (length (s_arrs S)), _. cbn [s_hs s_arrs]. rewrite nth_error_upd_eq by exact Lh. split; [reflexivity|]. split; [reflexivity|].
        rewrite nth_error_app2 by (rewrite upd_length; lia). rewrite upd_length, Nat.sub_diag. split; [reflexivity|]. cbn. auto. }
    destruct (St S1 w1 _ R1 G1) as (w' & S' & E & R' & G' & L'); cbn; auto.
    + rewrite repeat_length. reflexivity.
    + exists w', S'. cbn in G'. rewrite !orb_true_r. split; [exact E|]. split; [exact R'|]. split; [exact G'|].
      rewrite L'. subst S1. cbn. rewrite put_upd by (eapply nth_lt; eauto). apply upd_length.
Qed.
Lemma put_back_all_ok : forall ds ts rest pre S w, R S w -> G S (pre ++ rest) -> length rest = length ds -> length rest = length ts ->
  Forall (fun b => b_own b = 0 /\ b_cur b = 0) rest -> all_covered (map b_mark rest) ts (map b_vals rest) ds ->
  exists w' S' bs', put_back_all w (length pre) ds ts = Ok w' /\ R S' w' /\ G S' (pre ++ bs') /\
    map b_vals bs' = ds /\ map b_mark bs' = host_marks (map b_mark rest) ts (map b_vals rest) ds /\ Forall (fun b => b_own b = 0 /\ b_cur b = 0) bs' /\
    length bs' = length rest.
Proof.
  induction ds as [|d ds IH]; intros [|t ts] [|b rest] pre S w HR HG L1 L2 F C; cbn in L1, L2; try discriminate.
  - exists w, S, []. auto 10.
  - inversion F as [|? ? [F1 F2] F']; subst. cbn [map all_covered] in C. destruct C as [C C'].
    cbn [put_back_all]. destruct (put_back_buf HR HG (nth_mid _ _ _) F1 F2 C) as (w1 & S1 & E1 & R1 & G1 & LL).
    rewrite E1. cbn [bind]. rewrite upd_mid in G1. set (b1 := mkB _ _ _ _) in G1. change (pre ++ b1 :: rest) with (pre ++ [b1] ++ rest) in G1. rewrite app_assoc in G1.
    destruct (IH ts rest (pre ++ [b1]) S1 w1 R1 G1 ltac:(lia) ltac:(lia) F' C') as (w2 & S2 & bs' & E2 & R2 & G2 & V2 & M2 & F2' & L2').
    rewrite app_length in E2. cbn [length] in E2. rewrite Nat.add_1_r in E2. rewrite E2.
    exists w2, S2, (b1 :: bs'). rewrite <- app_assoc in G2. cbn [app] in G2. split; [reflexivity|]. split; [exact R2|]. split; [exact G2|].
    cbn [map host_marks]. rewrite V2, M2. subst b1. cbn. rewrite L2'. repeat split; auto.
Qed.
Lemma fetch_all_ok s : forall rest pre S w, R S w -> G S (pre ++ rest) -> Forall (fun b => b_own b = s /\ b_cur b = s) rest ->
  fetch_all w (seq (length pre) (length rest)) s = Ok (map b_vals rest).
Proof.
  induction rest as [|b rest IH]; intros pre S w HR HG F; [reflexivity|]. inversion F as [|? ? [F1 F2] F']; subst. cbn [length seq fetch_all map].
  destruct (G_at HG (nth_mid _ _ _)) as (h & k & a & H1 & H2 & H3 & H4 & H5 & H6).
  rewrite (fetch_ok (s := b_own b) HR H1 H2 H3); [|rewrite H5; intros Ne; destruct (H6 Ne) as (Q1 & Q2 & _); split; congruence]. cbn [bind].
  specialize (IH (pre ++ [b]) S w HR). rewrite <- app_assoc in IH. cbn [app] in IH. rewrite app_length in IH. cbn [length] in IH. rewrite Nat.add_1_r in IH.
  rewrite (IH HG F'). cbn [bind]. rewrite H5. reflexivity.
Qed.

(** ** Kernels *)
(** Handle [v] is the captured buffer [i]. *)
Definition sees (S : sstate) (v i : nat) (m : bool) (s : nat) (b : bufst) : Prop :=
  exists hv hi k, nth_error (s_hs S) v = Some hv /\ nth_error (s_hs S) i = Some hi /\ h_arr hv = Some k /\ h_arr hi = Some k /\
    (b_vals b <> [] -> h_space hv = Some s) /\ b_cur b = s /\ (m = true -> b_mark b = true).

Lemma G_more S bs hs : G S bs -> G (mkS (s_arrs S) (s_hs S ++ hs)) bs.
Proof.
  intros [G1 G2]. assert (L : forall i, i < length bs -> i < length (s_hs S)).
  { intros i Li. destruct (nth_error bs i) as [b|] eqn:E; [|apply nth_error_None in E; lia]. destruct (G1 i b E) as (h & k & a & H & _). eapply nth_lt; eauto. }
  split.
  - intros i b Hb. destruct (G1 i b Hb) as (h & k & a & H1 & H). exists h, k, a. cbn [s_hs s_arrs]. rewrite nth_error_app1 by (eapply nth_lt; eauto). auto.
  - intros i j hi hj k Li Lj Hi Hj. cbn [s_hs] in *. rewrite nth_error_app1 in Hi by auto. rewrite nth_error_app1 in Hj by auto. eapply G2; eauto.
Qed.
Lemma put_last A (l : list A) x y : put (l ++ [x]) (length l) y = l ++ [y].
Proof. rewrite put_upd by (rewrite app_length; cbn; lia). apply upd_app_last. Qed.

Lemma capture_buf S w bs i b m s : s < 2 -> R S w -> G S bs -> nth_error bs i = Some b ->
  let b' := mkB (b_vals b) (b_own b) s ((b_cur b =? s) && b_mark b || m)%bool in
  exists w' S', capture w i m s = Ok w' /\ R S' w' /\ G S' (upd bs i b') /\
    length (w_bufs w) = length (s_hs S) /\ length (s_hs S') = length (s_hs S) + 2 /\
    (forall v, v < length (s_hs S) -> nth_error (s_hs S') v = nth_error (s_hs S) v) /\ sees S' (length (s_hs S) + 1) i m s b'.
Proof.
  intros Ls HR HG Hb b'. destruct (G_at HG Hb) as (h & k & a & H1 & H2 & H3 & H4 & H5 & H6). pose proof (nth_lt H1) as Lh. pose proof (nth_lt H3) as La.
  assert (LW : length (w_bufs w) = length (s_hs S)) by (destruct HR as [_ F]; symmetry; exact (F2_len F)).
  set (hv := mkH (h_arr h) (h_space h) (negb m)).
  assert (V : exists w1, (if m then chai_copy 2 w i None else chai_const w i) = Ok w1 /\ R (mkS (s_arrs S) (s_hs S ++ [hv])) w1).
  { destruct m.
    - destruct (@step_refines X 2 (CCopy i None) S w (mkS (s_arrs S) (s_hs S ++ [hv])) None HR) as (w1 & E & R1).
      + cbn [spec_step]. rewrite H1. unfold spec_move. cbn [s_hs]. rewrite nth_app_last. subst hv. destruct h as [h_a h_s h_c]; cbn in H4; subst h_c; reflexivity.
      + exists w1. split; [|exact R1]. cbn [chai_step] in E. unfold plain in E. destruct (chai_copy 2 w i None); [|discriminate|discriminate]. cbn in E. congruence.
    - destruct (@step_refines X 2 (CConst i) S w (mkS (s_arrs S) (s_hs S ++ [hv])) None HR) as (w1 & E & R1).
      + cbn [spec_step]. rewrite H1. reflexivity.
      + exists w1. split; [|exact R1]. cbn [chai_step] in E. unfold plain in E. destruct (chai_const w i); [|discriminate|discriminate]. cbn in E. congruence. }
  destruct V as (w1 & E1 & R1). unfold capture. rewrite E1. cbn [bind]. rewrite LW.
  set (S1 := mkS (s_arrs S) (s_hs S ++ [hv])) in *.
  assert (M : exists S', spec_move 2 (mkS (s_arrs S1) (s_hs S1 ++ [hv])) (length (s_hs S1)) (Some s) true = Some S' /\
     G S' (upd bs i b') /\ length (s_hs S') = length (s_hs S) + 2 /\
     (forall v, v < length (s_hs S) -> nth_error (s_hs S') v = nth_error (s_hs S) v) /\ sees S' (length (s_hs S) + 1) i m s b').
  { assert (LS1 : length (s_hs S1) = length (s_hs S) + 1) by (cbn; rewrite app_length; reflexivity).
    assert (Fin : forall (S' : sstate) hv' a', s_hs S' = s_hs S ++ [hv; hv'] -> s_arrs S' = put (s_arrs S) k (Some a') ->
        h_arr hv' = Some k -> l_vals a' = l_vals a ->
        (l_vals a <> [] -> h_space hv' = Some s /\ l_cur a' = Some s /\ (b_mark b' = true -> l_dirty a' = true)) ->
        G S' (upd bs i b') /\ length (s_hs S') = length (s_hs S) + 2 /\
        (forall v, v < length (s_hs S) -> nth_error (s_hs S') v = nth_error (s_hs S) v) /\ sees S' (length (s_hs S) + 1) i m s b').
    { intros S' hv' a' Es Ea Kv Va P. rewrite Es. split.
      { pose proof (@G_arr S bs i b h k a' b' HG Hb H1 H2 La H4) as HG'.
        assert (HG2 : G (mkS (put (s_arrs S) k (Some a')) (s_hs S)) (upd bs i b')).
        { apply HG'; [cbn; congruence|]. cbn [b_vals b']. intros Ne. rewrite <- H5 in Ne. destruct (P Ne) as (P1 & P2 & P3). rewrite H5 in Ne. destruct (H6 Ne) as (Q1 & _).
          split; [exact Q1|]. split; [exact P2|exact P3]. }
        apply (G_more [hv; hv']) in HG2. cbn [s_arrs s_hs] in HG2. destruct S' as [ar hs']. cbn in *. subst. exact HG2. }
      split; [rewrite app_length; reflexivity|]. split; [intros v Lv; apply nth_error_app1; exact Lv|].
      exists hv', h, k. rewrite Es. rewrite nth_error_app2 by lia. replace (length (s_hs S) + 1 - length (s_hs S)) with 1 by lia. split; [reflexivity|].
      rewrite nth_error_app1 by exact Lh. split; [exact H1|]. split; [exact Kv|]. split; [exact H2|]. split.
      - cbn [b_vals b']. rewrite <- H5. intros Ne. apply P. exact Ne.
      - split; [reflexivity|]. intros ->. cbn. apply orb_true_r. }
    unfold spec_move. cbn [s_hs]. rewrite nth_app_last. unfold arr_of. cbn [s_arrs h_arr hv]. rewrite H2. change (s_arrs S1) with (s_arrs S). rewrite H3.
    destruct (l_vals a) as [|x l] eqn:Ev.
    - eexists. split; [reflexivity|]. apply (Fin _ hv a); auto.
      + cbn. rewrite <- app_assoc. reflexivity.
      + cbn. rewrite put_upd by exact La. symmetry. apply upd_same. exact H3.
      + contradiction.
    - rewrite <- H5 in H6. destruct H6 as (Q1 & Q2 & Q3); [discriminate|]. rewrite Q2. subst b'.
      destruct (Nat.eqb_spec (b_cur b) s) as [->|Nc].
      + eexists. split; [reflexivity|]. eapply Fin; [cbn [s_hs]; rewrite put_last; subst S1; cbn [s_hs]; rewrite <- app_assoc; reflexivity|reflexivity|reflexivity|reflexivity|].
        intros _. cbn. split; [reflexivity|]. split; [reflexivity|]. rewrite negb_involutive, andb_true_r. intros Hm. destruct m; [apply orb_true_r|].
        rewrite Q3; [reflexivity|]. destruct (b_mark b); [reflexivity|discriminate].
      + apply Nat.ltb_lt in Ls. rewrite Ls. cbn [andb Nat.leb orb].
        eexists. split; [reflexivity|]. eapply Fin; [cbn [s_hs]; rewrite put_last; subst S1; cbn [s_hs]; rewrite <- app_assoc; reflexivity|reflexivity|reflexivity|reflexivity|].
        intros _. cbn. split; [reflexivity|]. split; [reflexivity|]. destruct m; auto. }
  destruct M as (S' & Em & HG' & L' & F' & Sv).
  destruct (@step_refines X 2 (CCopy (length (s_hs S)) (Some s)) S1 w1 S' None R1) as (w' & E & R').
  - cbn [spec_step]. subst S1. cbn [s_hs s_arrs] in *. rewrite nth_app_last. rewrite Em. reflexivity.
  - exists w', S'. split; [|auto 10]. cbn [chai_step] in E. unfold plain in E. destruct (chai_copy 2 w1 (length (s_hs S)) (Some s)); [|discriminate|discriminate]. cbn in E. congruence.
Qed.

Lemma capture_all_ok s : s < 2 -> forall mut rest pre vs0 mut0 S w, R S w -> G S (pre ++ rest) -> length rest = length mut -> length vs0 = length pre -> length mut0 = length pre ->
  (forall i v m b, nth_error vs0 i = Some v -> nth_error mut0 i = Some m -> nth_error pre i = Some b -> sees S v i m s b) ->
  exists w' S' vs bs', capture_all w (length pre) mut s = Ok (w', vs) /\ R S' w' /\ G S' (pre ++ bs') /\ length vs = length rest /\
    map b_vals bs' = map b_vals rest /\ map b_own bs' = map b_own rest /\ Forall (fun b => b_cur b = s) bs' /\
    (forall same, (forall b, In b rest -> (b_cur b =? s) = same) -> map b_mark bs' = marks_in same (map b_mark rest) mut) /\
    (forall i v m b, nth_error (vs0 ++ vs) i = Some v -> nth_error (mut0 ++ mut) i = Some m -> nth_error (pre ++ bs') i = Some b -> sees S' v i m s b).
Proof.
  intros Ls. induction mut as [|m mut IH]; intros [|b rest] pre vs0 mut0 S w HR HG L Lv Lm Hs; cbn in L; try discriminate.
  - rewrite app_nil_r in HG. exists w, S, [], []. rewrite !app_nil_r. cbn. auto 12.
  - cbn [capture_all]. destruct (capture_buf m Ls HR HG (nth_mid _ _ _)) as (w1 & S1 & E1 & R1 & G1 & LW & L1 & F1 & Sv).
    rewrite E1. cbn [bind]. rewrite upd_mid in G1. set (b1 := mkB _ _ _ _) in *. change (pre ++ b1 :: rest) with (pre ++ [b1] ++ rest) in G1. rewrite app_assoc in G1.
    assert (Lpre : length (pre ++ [b1]) = Datatypes.S (length pre)) by (rewrite app_length; cbn; lia).
    destruct (IH rest (pre ++ [b1]) (vs0 ++ [length (s_hs S) + 1]) (mut0 ++ [m]) S1 w1 R1 G1 ltac:(lia)) as (w2 & S2 & vs & bs' & E2 & R2 & G2 & LV & V2 & O2 & C2 & M2 & Sn).
    { rewrite !app_length. cbn. lia. }
    { rewrite !app_length. cbn. lia. }
    { intros j v mj bj Hv Hm Hj. destruct (Nat.lt_ge_cases j (length pre)) as [Lj|Lj].
      - rewrite nth_error_app1 in Hv by lia. rewrite nth_error_app1 in Hm by lia. rewrite nth_error_app1 in Hj by lia.
        destruct (Hs j v mj bj Hv Hm Hj) as (hv & hi & k & Q1 & Q2 & Q). exists hv, hi, k. rewrite !F1 by (eapply nth_lt; eauto). auto.
      - assert (j = length pre) by (apply nth_lt in Hj; rewrite app_length in Hj; cbn in Hj; lia). subst j.
        rewrite nth_mid in Hj. rewrite nth_error_app2 in Hv by lia. rewrite nth_error_app2 in Hm by lia. rewrite Lv, Nat.sub_diag in Hv. rewrite Lm, Nat.sub_diag in Hm. cbn in Hv, Hm.
        injection Hv as <-. injection Hm as <-. injection Hj as <-. exact Sv. }
    rewrite Lpre in E2. rewrite E2. cbn [bind]. exists w2, S2, (length (w_bufs w) + 1 :: vs), (b1 :: bs').
    rewrite <- app_assoc in G2. cbn [app] in G2. split; [reflexivity|]. split; [exact R2|]. split; [exact G2|]. split; [cbn; congruence|].
    cbn [map]. rewrite V2, O2. split; [reflexivity|]. split; [reflexivity|]. split; [constructor; [reflexivity|exact C2]|]. split.
    + intros same Sm. cbn [marks_in]. rewrite (M2 same) by (intros b0 Hb0; apply Sm; right; exact Hb0). rewrite <- (Sm b) by (left; reflexivity). reflexivity.
    + rewrite LW. intros j v mj bj Hv Hm Hj. apply (Sn j v mj bj); [rewrite <- app_assoc; exact Hv|rewrite <- app_assoc; exact Hm|rewrite <- app_assoc; exact Hj].
Qed.

Lemma fetch_views S w s : R S w -> forall vs rest pre, G S (pre ++ rest) -> length vs = length rest ->
  (forall i v b, nth_error vs i = Some v -> nth_error rest i = Some b -> exists m, sees S v (length pre + i) m s b) ->
  fetch_all w vs s = Ok (map b_vals rest).
Proof.
  intros HR. induction vs as [|v vs IH]; intros [|b rest] pre HG L Hs; cbn in L; try discriminate; [reflexivity|]. cbn [fetch_all map].
  destruct (Hs 0 v b eq_refl eq_refl) as (m & hv & hi & k & Q1 & Q2 & Q3 & Q4 & Q5 & Q6 & Q7). rewrite Nat.add_0_r in Q2.
  destruct (G_at HG (nth_mid _ _ _)) as (h & k0 & a & H1 & H2 & H3 & H4 & H5 & H6). assert (h = hi) by congruence. subst h. assert (k0 = k) by congruence. subst k0.
  rewrite (fetch_ok (s := s) HR Q1 Q3 H3); [|rewrite H5; intros Ne; split; [auto|]; destruct (H6 Ne) as (_ & P & _); congruence]. cbn [bind].
  specialize (IH rest (pre ++ [b])). rewrite <- app_assoc in IH. cbn [app] in IH. rewrite IH; auto.
  - cbn. rewrite H5. reflexivity.
  - intros j v' b' Hv Hb. rewrite app_length. cbn [length]. replace (length pre + 1 + j) with (length pre + Datatypes.S j) by lia. apply Hs; auto.
Qed.

Lemma kernel_store_ok s : forall vs mut ds rest pre S w, R S w -> G S (pre ++ rest) -> length vs = length rest -> length mut = length rest ->
  (forall i v m b, nth_error vs i = Some v -> nth_error mut i = Some m -> nth_error rest i = Some b -> sees S v (length pre + i) m s b) ->
  match keep mut (map b_vals rest) ds with
  | Ok ds' => exists w' S' bs', kernel_store w vs mut s ds = Ok w' /\ R S' w' /\ G S' (pre ++ bs') /\ map b_vals bs' = ds' /\
      map b_own bs' = map b_own rest /\ map b_cur bs' = map b_cur rest /\ map b_mark bs' = map b_mark rest
  | Abort => kernel_store w vs mut s ds = Abort
  | Fault f => kernel_store w vs mut s ds = Fault f
  end.
Proof.
  induction vs as [|v vs IH]; intros [|m mut] ds [|b rest] pre S w HR HG L1 L2 Hs; cbn in L1, L2; try discriminate.
  - destruct ds; cbn; [|reflexivity]. exists w, S, []. auto 10.
  - destruct ds as [|d ds]; [reflexivity|]. cbn [map keep kernel_store].
    destruct (Hs 0 v m b eq_refl eq_refl eq_refl) as (hv & hi & k & Q1 & Q2 & Q3 & Q4 & Q5 & Q6 & Q7). rewrite Nat.add_0_r in Q2.
    assert (Step : forall b1 w1 S1, R S1 w1 -> G S1 (pre ++ b1 :: rest) -> s_hs S1 = s_hs S -> b_own b1 = b_own b -> b_cur b1 = b_cur b -> b_mark b1 = b_mark b ->
      match (xs <- keep mut (map b_vals rest) ds ;; Ok (b_vals b1 :: xs)) with
      | Ok ds' => exists w' S' bs', kernel_store w1 vs mut s ds = Ok w' /\ R S' w' /\ G S' (pre ++ bs') /\ map b_vals bs' = ds' /\
          map b_own bs' = map b_own (b :: rest) /\ map b_cur bs' = map b_cur (b :: rest) /\ map b_mark bs' = map b_mark (b :: rest)
      | Abort => kernel_store w1 vs mut s ds = Abort
      | Fault f => kernel_store w1 vs mut s ds = Fault f
      end).
    { intros b1 w1 S1 R1 G1 Eh O1 C1 M1. specialize (IH mut ds rest (pre ++ [b1]) S1 w1 R1). rewrite <- app_assoc in IH. cbn [app] in IH.
      specialize (IH G1 ltac:(lia) ltac:(lia)). destruct (keep mut (map b_vals rest) ds) as [xs| |f]; cbn [bind].
      - destruct IH as (w' & S' & bs' & E & R' & G' & V & O & C & M).
        { intros j v' m' b' Hv Hm Hb. rewrite app_length. cbn [length]. replace (length pre + 1 + j) with (length pre + Datatypes.S j) by lia.
          destruct (Hs (Datatypes.S j) v' m' b' Hv Hm Hb) as (x1 & x2 & x3 & P1 & P2 & P). exists x1, x2, x3. rewrite Eh. auto. }
        exists w', S', (b1 :: bs'). rewrite <- app_assoc in G'. cbn [app] in G'. cbn [map]. rewrite V, O, C, M, O1, C1, M1. auto 10.
      - apply IH. intros j v' m' b' Hv Hm Hb. rewrite app_length. cbn [length]. replace (length pre + 1 + j) with (length pre + Datatypes.S j) by lia.
        destruct (Hs (Datatypes.S j) v' m' b' Hv Hm Hb) as (x1 & x2 & x3 & P1 & P2 & P). exists x1, x2, x3. rewrite Eh. auto.
      - apply IH. intros j v' m' b' Hv Hm Hb. rewrite app_length. cbn [length]. replace (length pre + 1 + j) with (length pre + Datatypes.S j) by lia.
        destruct (Hs (Datatypes.S j) v' m' b' Hv Hm Hb) as (x1 & x2 & x3 & P1 & P2 & P). exists x1, x2, x3. rewrite Eh. auto. }
    destruct m.
    + destruct (Nat.eqb_spec (length (b_vals b)) (length d)) as [El|Nl].
      * destruct (@store_buf S w _ (length pre) b s d v hv hi k HR HG (nth_mid _ _ _) Q1 Q2 Q3 Q4 Q5 Q6 (eq_sym El) (or_introl (Q7 eq_refl))) as (w1 & S1 & E1 & R1 & G1 & H1).
        rewrite E1. cbn [bind]. rewrite upd_mid in G1. exact (Step _ _ _ R1 G1 H1 eq_refl eq_refl eq_refl).
      * cbn [bind]. destruct (G_at HG (nth_mid _ _ _)) as (h & k0 & a & H1 & H2 & H3 & H4 & H5 & H6). assert (h = hi) by congruence. subst h. assert (k0 = k) by congruence. subst k0.
        destruct (open_buf HR Q1 Q3 H3) as (c & Hc & Cap & _). unfold store. rewrite (aget_some Hc). cbn [bind]. rewrite Cap, H5.
        apply Nat.eqb_neq in Nl. rewrite Nl. reflexivity.
    + cbn [bind]. exact (Step b w S HR HG eq_refl eq_refl eq_refl eq_refl).
Qed.
End Spaces.

(** ** Programs *)
Section Run.
Variable X N O : Type.
Variable dev : list bool.
Notation sop := (sop X N O).
Definition Rel (x : obj X N) (p : place) (y : flat X N) : Prop :=
  exists S bs, R 2 S (ob_w x) /\ G S bs /\ ob_n x = fst y /\ map (@b_vals X) bs = snd y /\ map (@b_mark X) bs = p_marks p /\
    Forall (fun b => b_own b = p_own p /\ b_cur b = p_cur p) bs /\ length bs = length dev.

Lemma zip3_vals (f : bool -> bufst X -> bufst X) : (forall t b, b_vals (f t b) = b_vals b) -> forall ts bs, length bs = length ts -> map (@b_vals X) (zip3 f ts bs) = map (@b_vals X) bs.
Proof. intros H. induction ts as [|t ts IH]; intros [|b bs] L; cbn in *; try discriminate; [reflexivity|]. rewrite H, IH by lia. reflexivity. Qed.
Lemma zip3_len (f : bool -> bufst X -> bufst X) : forall ts bs, length bs = length ts -> length (zip3 f ts bs) = length ts.
Proof. induction ts as [|t ts IH]; intros [|b bs] L; cbn in *; try discriminate; [reflexivity|]. rewrite IH by lia. reflexivity. Qed.
Lemma zip3_all (f : bool -> bufst X -> bufst X) (P : bufst X -> Prop) : (forall t b, P (f t b)) -> forall ts bs, Forall P (zip3 f ts bs).
Proof. intros H. induction ts as [|t ts IH]; intros [|b bs]; cbn; constructor; auto. Qed.
Lemma zip3_marks (g : bool -> bool) c s : forall ts bs, length bs = length ts -> Forall (fun b => b_cur b = c) bs ->
  map (@b_mark X) (zip3 (fun t b => mkB (b_vals b) s s ((b_cur b =? s) && b_mark b || g t)%bool) ts bs) = marks_in (c =? s) (map (@b_mark X) bs) (map g ts).
Proof.
  induction ts as [|t ts IH]; intros [|b bs] L F; cbn in *; try discriminate; [reflexivity|]. inversion F; subst. rewrite IH by (auto; lia). reflexivity.
Qed.
Lemma owns_spec (bs : list (bufst X)) o c : Forall (fun b => b_own b = o /\ b_cur b = c) bs -> map (@b_own X) bs = repeat o (length bs) /\ map (@b_cur X) bs = repeat c (length bs).
Proof. induction 1 as [|b bs [H1 H2] F [I1 I2]]; cbn; [auto|]. rewrite H1, H2, I1, I2. auto. Qed.
Lemma owns_back (bs : list (bufst X)) o c k : map (@b_own X) bs = repeat o k -> map (@b_cur X) bs = repeat c k -> Forall (fun b => b_own b = o /\ b_cur b = c) bs.
Proof.
  revert k. induction bs as [|b bs IH]; intros [|k] H1 H2; cbn in *; try discriminate; constructor.
  - split; congruence.
  - apply (IH k); congruence.
Qed.

Theorem step_ok (o : sop) x p y : Rel x p y -> allowed o p y ->
  match flat_step o y with
  | Ok (y', r) => exists x', space_step dev o x = Ok (x', r) /\ Rel x' (place_step dev o p y) y'
  | Abort => space_step dev o x = Abort
  | Fault e => space_step dev o x = Fault e
  end.
Proof.
  intros (S & bs & HR & HG & En & Ev & Em & F & L) A. destruct y as [n cs]. cbn [fst snd] in *. destruct o as [f|s mut g|s mut g|s touch|s]; cbn [flat_step space_step allowed place_step fst snd] in *.
  - destruct A as (Ow & Cu & A). rewrite Ow, Cu in F. pose proof (fetch_all_ok (pre := []) HR HG F) as Fe. cbn [length] in Fe. rewrite L in Fe. rewrite Fe. cbn [bind]. rewrite En, Ev.
    destruct (f n cs) as [[[[n' ds] ts] r]| |e]; cbn [bind]; try reflexivity.
    assert (Lc : length cs = length dev) by (rewrite <- Ev, map_length; exact L). rewrite Lc in *.
    destruct (Nat.eqb_spec (length ds) (length dev)) as [L1|?]; [|reflexivity]. destruct (Nat.eqb_spec (length ts) (length dev)) as [L2|?]; [|reflexivity]. cbn [andb bind].
    specialize (A L1 L2). rewrite <- Em, <- Ev in A.
    destruct (@put_back_all_ok X ds ts bs [] S (ob_w x) HR HG ltac:(congruence) ltac:(congruence) F A) as (w' & S' & bs' & E & R' & G' & V & M & F' & L').
    cbn [length] in E. rewrite E. cbn [bind]. eexists. split; [reflexivity|]. exists S', bs'. cbn. rewrite M, Em, Ev. rewrite L in L'. auto 10.
  - destruct (Nat.eqb_spec (length mut) (length dev)) as [Lm|Nm].
    + rewrite <- Ev, map_length, L. rewrite <- Lm, Nat.eqb_refl. cbn [bind].
      destruct (@capture_all_ok X s A mut bs [] [] [] S (ob_w x) HR HG ltac:(congruence) eq_refl eq_refl) as (w1 & S1 & vs & bs1 & E1 & R1 & G1 & LV & V1 & O1 & C1 & M1 & Sn).
      { intros [|i]; discriminate. }
      cbn [length] in E1. rewrite E1. cbn [bind].
      assert (L1 : length bs1 = length bs) by (rewrite <- (map_length (@b_vals X)), V1, map_length; reflexivity).
      rewrite (@fetch_views X S1 w1 s R1 vs bs1 [] G1).
      2: { rewrite LV, <- (map_length (@b_vals X)), <- V1, map_length. reflexivity. }
      2: { intros i v b Hv Hb. destruct (nth_error mut i) as [m|] eqn:Hm; [|apply nth_error_None in Hm; apply nth_lt in Hb; lia]. exists m. apply Sn; auto. }
      cbn [bind]. rewrite En, V1, Ev. destruct (g n cs) as [[ds r]| |e]; cbn [bind]; try reflexivity.
      pose proof (@kernel_store_ok X s vs mut ds bs1 [] S1 w1 R1 G1 ltac:(congruence) ltac:(congruence)) as K. rewrite V1, Ev in K.
      destruct (keep mut cs ds) as [ds'| |e]; cbn [bind].
      * destruct K as (w2 & S2 & bs2 & E2 & R2 & G2 & V2 & O2 & C2 & M2).
        { intros i v m b Hv Hm Hb. apply Sn; auto. }
        rewrite E2. cbn [bind]. eexists. split; [reflexivity|]. exists S2, bs2. cbn. split; [exact R2|]. split; [exact G2|]. split; [reflexivity|]. split; [exact V2|].
        split; [|split].
        -- rewrite M2, <- Em. apply M1. intros b Hb. rewrite Forall_forall in F. destruct (F b Hb) as [_ ->]. reflexivity.
        -- apply (@owns_back bs2 (p_own p) s (length bs)).
           ++ rewrite O2, O1. apply (owns_spec F).
           ++ rewrite C2, <- L1. clear - C1. induction C1; cbn; congruence.
        -- rewrite <- (map_length (@b_own X)), O2, O1, map_length. exact L.
      * cbn in K. rewrite K; [reflexivity|]. intros i v m b Hv Hm Hb. apply Sn; auto.
      * cbn in K. rewrite K; [reflexivity|]. intros i v m b Hv Hm Hb. apply Sn; auto.
    + rewrite <- Ev, map_length, L. apply Nat.eqb_neq in Nm. rewrite Nm. reflexivity.
  - destruct A as (Ow & Cu & A). rewrite Ow, Cu in F. assert (Lc : length cs = length dev) by (rewrite <- Ev, map_length; exact L). rewrite Lc.
    destruct (Nat.eqb_spec (length mut) (length dev)) as [Lm|Nm]; cbn [bind]; [|reflexivity].
    pose proof (fetch_all_ok (pre := []) HR HG F) as Fe. cbn [length] in Fe. rewrite L in Fe. rewrite Fe. cbn [bind]. rewrite En, Ev.
    destruct (g n cs) as [[ds r]| |e]; cbn [bind]; try reflexivity.
    assert (Sn : forall i v m b, nth_error (seq 0 (length dev)) i = Some v -> nth_error mut i = Some m -> nth_error bs i = Some b -> sees S v (length (@nil (bufst X)) + i) m s b).
    { intros i v m b Hv Hm Hb. cbn [length Nat.add]. assert (Hi : i < length dev) by (apply nth_lt in Hm; lia).
      rewrite (nth_error_nth' _ 0) in Hv by (rewrite seq_length; exact Hi). rewrite seq_nth in Hv by exact Hi. injection Hv as <-. cbn [Nat.add].
      destruct (G_at HG Hb) as (h & k & a & H1 & H2 & H3 & H4 & H5 & H6). rewrite Forall_forall in F. destruct (F b (nth_error_In _ _ Hb)) as [Fo Fc].
      exists h, h, k. split; [exact H1|]. split; [exact H1|]. split; [exact H2|]. split; [exact H2|]. split; [intros Ne; destruct (H6 Ne) as (Q & _); congruence|]. split; [exact Fc|].
      intros ->. specialize (A i Hm). rewrite <- Em, nth_error_map, Hb in A. injection A as A. exact A. }
    pose proof (@kernel_store_ok X s (seq 0 (length dev)) mut ds bs [] S (ob_w x) HR HG ltac:(rewrite seq_length; congruence) ltac:(congruence) Sn) as K. rewrite Ev in K.
    destruct (keep mut cs ds) as [ds'| |e]; cbn [bind].
    + destruct K as (w2 & S2 & bs2 & E2 & R2 & G2 & V2 & O2 & C2 & M2). rewrite E2. cbn [bind]. eexists. split; [reflexivity|]. exists S2, bs2. cbn. split; [exact R2|]. split; [exact G2|]. split; [reflexivity|]. split; [exact V2|].
      destruct (owns_spec F) as [Q1 Q2]. split; [congruence|]. split; [|rewrite <- (map_length (@b_own X)), O2, map_length; exact L]. rewrite Ow, Cu. apply (@owns_back bs2 s s (length bs)); congruence.
    + cbn in K. rewrite K. reflexivity.
    + cbn in K. rewrite K. reflexivity.
  - destruct (@move_all_ok X s touch A dev [] bs S (ob_w x) HR HG L) as (w' & S' & E & R' & G' & L'). cbn [length] in E. rewrite E. cbn [bind].
    eexists. split; [reflexivity|]. exists S'. eexists. split; [exact R'|]. split; [exact G'|]. cbn [fst snd ob_n app]. split; [exact En|].
    split; [rewrite zip3_vals; auto|]. split; [|split].
    + rewrite <- Em. cbn [p_marks]. apply (@zip3_marks (fun t => touch && (t || (s =? 0)))%bool); [exact L|]. eapply Forall_impl; [|exact F]. cbn. tauto.
    + apply zip3_all. cbn. auto.
    + apply zip3_len. exact L.
  - destruct A as [Cu A]. subst s. rewrite <- L. destruct (@touch_all_ok X (p_cur p) bs [] S (ob_w x) HR HG) as (w' & S' & E & R' & G' & L').
    { rewrite <- Ev in A. rewrite Forall_map in A. rewrite Forall_forall in *. intros b Hb. split; [apply A; exact Hb|apply F; exact Hb]. }
    cbn [length] in E. rewrite E. cbn [bind]. eexists. split; [reflexivity|]. exists S'. eexists. split; [exact R'|]. split; [exact G'|]. cbn [fst snd ob_n p_marks p_own p_cur app].
    rewrite !map_map. cbn. split; [exact En|]. split; [exact Ev|]. split; [rewrite <- Em, map_map; reflexivity|]. split; [|rewrite map_length; exact L].
    rewrite Forall_map. cbn. exact F.
Qed.

Theorem run_ok : forall (l : list sop) x p y, Rel x p y -> follows dev l p y ->
  match flat_run l y with
  | Ok (y', r) => exists x' p', space_run dev l x = Ok (x', r) /\ Rel x' p' y'
  | Abort => space_run dev l x = Abort
  | Fault e => space_run dev l x = Fault e
  end.
Proof.
  induction l as [|o l IH]; intros x p y HR HF; cbn [flat_run space_run follows] in *; [eauto|].
  destruct HF as [A HF]. pose proof (step_ok HR A) as St. destruct (flat_step o y) as [[y1 r1]| |e]; cbn [bind].
  - destruct St as (x1 & E & R1). rewrite E. cbn [bind]. specialize (IH _ _ _ R1 HF). destruct (flat_run l y1) as [[y2 r2]| |e]; cbn [bind].
    + destruct IH as (x2 & p2 & E2 & R2). rewrite E2. cbn [bind]. eauto.
    + rewrite IH. reflexivity.
    + rewrite IH. reflexivity.
  - rewrite St. reflexivity.
  - rewrite St. reflexivity.
Qed.

Lemma new_bufs_ok : forall k (S : sstate X) (w : world X), R 2 S w -> R 2 (mkS (s_arrs S ++ repeat (Some (mkL [] None false)) k)
    (s_hs S ++ map (fun i => mkH (Some i) None false) (seq (length (s_arrs S)) k))) (new_bufs k w).
Proof.
  induction k as [|k IH]; intros S w HR; cbn [new_bufs repeat seq map].
  - rewrite !app_nil_r. destruct S; exact HR.
  - apply step_new in HR. apply IH in HR. cbn [s_arrs s_hs] in HR. rewrite <- !app_assoc in HR. cbn [app] in HR. rewrite app_length in HR. cbn [length] in HR.
    rewrite Nat.add_1_r in HR. exact HR.
Qed.
Lemma new_rel n : Rel (new_obj X dev n) (home dev) (n, map (fun _ => []) dev).
Proof.
  unfold new_obj. eexists _, (map (fun _ => mkB [] 0 0 true) dev). cbn [ob_w ob_n fst snd]. split; [apply new_bufs_ok; apply R_empty|]. cbn [s_arrs s_hs spec_empty app length].
  split; [split|].
  - intros i b Hb. rewrite nth_error_map in Hb. destruct (nth_error dev i) as [t|] eqn:E; [|discriminate]. injection Hb as <-. apply nth_lt in E.
    exists (mkH (Some i) None false), i, (mkL [] None false). cbn [s_hs s_arrs]. split.
    + rewrite nth_error_map. rewrite (nth_error_nth' _ 0) by (rewrite seq_length; exact E). rewrite seq_nth by exact E. reflexivity.
    + split; [reflexivity|]. split; [apply nth_error_repeat; exact E|]. cbn. repeat split; contradiction.
  - rewrite map_length. intros i j hi hj k Li Lj Hi Hj Ki Kj. cbn [s_hs] in *.
    rewrite nth_error_map, (nth_error_nth' _ 0) in Hi by (rewrite seq_length; exact Li). rewrite seq_nth in Hi by exact Li.
    rewrite nth_error_map, (nth_error_nth' _ 0) in Hj by (rewrite seq_length; exact Lj). rewrite seq_nth in Hj by exact Lj.
    cbn in Hi, Hj. injection Hi as <-. injection Hj as <-. cbn in *. congruence.
  - split; [reflexivity|]. rewrite !map_map. cbn. split; [reflexivity|]. split; [reflexivity|]. split; [|apply map_length].
    rewrite Forall_map. cbn. apply Forall_forall. auto.
Qed.

(** ** The simple protocol implies the other one *)
Lemma marks_true : forall (ds ms : list bool) same, length ds = length ms -> Forall (fun m => m = true) ms -> Forall (fun m => m = true) (marks_in same ds ms).
Proof.
  induction ds as [|d ds IH]; intros [|m ms] same L F; cbn in *; try discriminate; [constructor|]. inversion F; subst. constructor; [apply orb_true_r|]. apply IH; [lia|assumption].
Qed.
Lemma marks_len : forall (ds ms : list bool) same, length ds = length ms -> length (marks_in same ds ms) = length ds.
Proof. induction ds as [|d ds IH]; intros [|m ms] same L; cbn in *; try discriminate; [reflexivity|]. rewrite IH by lia. reflexivity. Qed.
Lemma covered_true : forall (ms ts : list bool) (a b : contents X), Forall (fun m => m = true) ms ->
  (forall i d, nth_error ts i = Some true -> nth_error b i = Some d -> d <> []) -> all_covered ms ts a b.
Proof.
  induction ms as [|m ms IH]; intros [|t ts] [|x a] [|z b] F P; cbn; auto. inversion F; subst. split.
  - split; [auto|]. intros ->. apply (P 0 z eq_refl eq_refl).
  - apply IH; [assumption|]. intros i d Q1 Q2. apply (P (S i) d Q1 Q2).
Qed.
Lemma host_marks_true : forall (ms ts : list bool) (a b : contents X), Forall (fun m => m = true) ms -> length ts = length ms -> length a = length ms -> length b = length ms ->
  Forall (fun m => m = true) (host_marks ms ts a b) /\ length (host_marks ms ts a b) = length ms.
Proof.
  induction ms as [|m ms IH]; intros [|t ts] [|x a] [|z b] F L1 L2 L3; cbn in *; try discriminate; [auto|]. inversion F; subst.
  destruct (IH ts a b) as [I1 I2]; auto.
Qed.

Lemma keep_length : forall mut (a b c : contents X), keep mut a b = Ok c -> length c = length a.
Proof.
  induction mut as [|m mut IH]; intros [|x a] [|z b] c E; cbn in E; try discriminate; [injection E as <-; reflexivity|].
  destruct (if m then if length x =? length z then Ok z else Fault FOob else Ok x) as [q| |]; try discriminate. cbn [bind] in E. destruct (keep mut a b) as [xs| |] eqn:Ek; try discriminate.
  cbn in E. injection E as <-. cbn. f_equal. eauto.
Qed.
Definition at_home (here : option nat) (p : place) : Prop :=
  match here with
  | None => True
  | Some s => p_own p = s /\ p_cur p = s /\ (s = 0 -> Forall (fun m => m = true) (p_marks p)) /\
      forall i, nth_error dev i = Some true -> nth_error (p_marks p) i = Some true
  end.
Lemma all_marked (ms : list bool) : Forall (fun m => m = true) ms -> forall i, i < length ms -> nth_error ms i = Some true.
Proof.
  intros F i Hi. destruct (nth_error ms i) as [m|] eqn:E; [|apply nth_error_None in E; lia]. rewrite Forall_forall in F. rewrite (F m); [reflexivity|]. eapply nth_error_In; eauto.
Qed.
Lemma marks_nth : forall (ds ms : list bool) same i, length ds = length ms -> nth_error ms i = Some true -> nth_error (marks_in same ds ms) i = Some true.
Proof.
  induction ds as [|d ds IH]; intros [|m ms] same [|i] L E; cbn in *; try discriminate; [injection E as ->; rewrite orb_true_r; reflexivity|]. apply IH; [lia|exact E].
Qed.
Lemma tidy_follows : forall (l : list sop) here p y, tidy dev here l -> at_home here p ->
  length (p_marks p) = length dev -> length (snd y) = length dev -> follows dev l p y.
Proof.
  induction l as [|o l IH]; intros here p [n cs] T H Lp Ly; cbn [follows]; [exact I|]. cbn [snd] in Ly. destruct o as [f|s mut g|s mut g|s touch|s]; cbn [tidy allowed place_step flat_step fst snd] in *.
  - destruct T as (-> & Tf & T). destruct H as (H1 & H2 & H3 & _). specialize (H3 eq_refl). split.
    + split; [exact H1|]. split; [exact H2|]. destruct (f n cs) as [[[[n' ds] ts] r]| |e] eqn:Ef; auto. intros L1 L2. apply covered_true; [exact H3|].
      intros i d Ht Hd. eapply Tf; eauto.
    + destruct (f n cs) as [[[[n' ds] ts] r]| |e] eqn:Ef; cbn [bind]; auto. destruct (Nat.eqb_spec (length ds) (length cs)) as [L1|?]; cbn [andb]; [|exact I].
      destruct (Nat.eqb_spec (length ts) (length cs)) as [L2|?]; [|exact I].
      destruct (@host_marks_true (p_marks p) ts cs ds H3 ltac:(lia) ltac:(lia) ltac:(lia)) as [M1 M2].
      apply (IH (Some 0)); auto; cbn; try lia. split; [reflexivity|]. split; [reflexivity|]. split; [auto|]. intros i Hi. apply all_marked; [exact M1|]. apply nth_lt in Hi. lia.
  - destruct T as (Ls & T). split; [exact Ls|]. destruct (Nat.eqb_spec (length mut) (length cs)) as [Lm|?]; cbn [bind]; [|exact I].
    destruct (g n cs) as [[ds r]| |e]; cbn [bind]; auto. destruct (keep mut cs ds) as [ds'| |e] eqn:Ek; cbn [bind]; auto.
    apply (IH None); auto; cbn; try exact I.
    + rewrite marks_len; lia.
    + rewrite (keep_length Ek). exact Ly.
  - destruct T as (-> & Lm & Dm & T). pose proof H as (H1 & H2 & H3 & H4). split.
    + split; [exact H1|]. split; [exact H2|]. intros i Hi. destruct Dm as [->|Dm]; [|auto]. apply all_marked; [auto|]. apply nth_lt in Hi. lia.
    + destruct (length mut =? length cs); cbn [bind]; [|exact I]. destruct (g n cs) as [[ds r]| |e]; cbn [bind]; auto. destruct (keep mut cs ds) as [ds'| |e] eqn:Ek; cbn [bind]; auto.
      apply (IH (Some s)); auto. cbn. rewrite (keep_length Ek). exact Ly.
  - destruct T as (Ls & T). split; [exact Ls|]. apply (IH _ _ _ T); auto; cbn.
    + destruct touch; cbn [at_home p_own p_cur p_marks]; [|exact I]. split; [reflexivity|]. split; [reflexivity|]. split.
      * intros ->. apply marks_true; [rewrite map_length; lia|]. rewrite Forall_map. apply Forall_forall. intros t _. cbn. apply orb_true_r.
      * intros i Hi. apply marks_nth; [rewrite map_length; lia|]. rewrite nth_error_map, Hi. reflexivity.
    + rewrite marks_len; [lia|]. rewrite map_length; lia.
  - contradiction.
Qed.
End Run.
