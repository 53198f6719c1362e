(** The inner arrays of a nested array: their handles lie in the blocks of the outer buffer. *)
From Coq Require Import List Arith Lia Bool.
From Verif Require Import Base BaseProofs Chai ChaiSpec ChaiProofs Nested NestedSpec NestedFrame.
Import ListNotations.
Set Implicit Arguments.
Unset Strict Implicit.

Section Inner.
Variable V : Type.
Notation world := (world V).
Notation arrays := (list (option (larray V))).

(** values, current space, touched there *)
Record idesc : Type := mkD { d_vals : list (option V); d_cur : nat; d_dirty : bool }.
Definition entry (arrs : arrays) (d : idesc) (id : nat) : Prop :=
  exists a, nth_error arrs id = Some (Some a) /\ l_vals a = d_vals d /\
    (d_vals d <> [] -> l_cur a = Some (d_cur d) /\ l_dirty a = d_dirty d).
Definition slot (id : nat) (v : list (option V)) (t : nat) (h : handle) : Prop :=
  h_arr h = Some id /\ h_const h = false /\ (v <> [] -> h_space h = Some t).

(** [Ch]: the handles in the host block; each points to where the array is. [Cd]: the handles in the
    device block, if they are of any use. *)
Definition IRel (L : list idesc) (ids : list nat) (Ch Cd : list cbuf) (w : world) : Prop :=
  exists arrs Hh Hd,
    rel_recs 2 arrs w /\ Forall2 (rel_h arrs w) Hh Ch /\ Forall2 (rel_h arrs w) Hd Cd /\
    NoDup ids /\ length ids = length L /\ length Hh = length L /\
    (forall i d id, nth_error L i = Some d -> nth_error ids i = Some id -> entry arrs d id) /\
    (forall i d id h, nth_error L i = Some d -> nth_error ids i = Some id -> nth_error Hh i = Some h -> slot id (d_vals d) (d_cur d) h) /\
    (Hd = [] \/ length Hd = length L /\
      forall i d id h, nth_error L i = Some d -> nth_error ids i = Some id -> nth_error Hd i = Some h -> slot id (d_vals d) 1 h).

Lemma R_split arrs hs cs (w : world) : R 2 (mkS arrs hs) (rebuf cs w) <-> rel_recs 2 arrs w /\ Forall2 (rel_h arrs w) hs cs.
Proof. split; intros H; exact H. Qed.

Lemma F2_nth {A B} (P : A -> B -> Prop) l m i x : Forall2 P l m -> nth_error l i = Some x -> exists y, nth_error m i = Some y /\ P x y.
Proof. intros F. revert i. induction F as [|a b l m H F IH]; intros [|i] E; try discriminate; [injection E as ->; exists b; auto|exact (IH i E)]. Qed.
Lemma nth_some {A} (l : list A) i : i < length l -> exists x, nth_error l i = Some x.
Proof. intros H. destruct (nth_error l i) eqn:E; [eauto|]. apply nth_error_None in E. lia. Qed.
Lemma nodup_nth {A} (l : list A) i j x : NoDup l -> nth_error l i = Some x -> nth_error l j = Some x -> i = j.
Proof. intros N Hi Hj. apply (proj1 (NoDup_nth_error l) N); [apply nth_lt in Hi; exact Hi|congruence]. Qed.

Lemma app_inj_len {A} (a b c d : list A) : a ++ b = c ++ d -> length a = length c -> a = c /\ b = d.
Proof.
  revert c. induction a as [|x a IH]; intros [|y c] E H; cbn in *; try lia; auto.
  injection E as -> E. destruct (IH c E) as [-> ->]; [lia|auto].
Qed.
Lemma F2_split {A B} (P : A -> B -> Prop) a b c d : Forall2 P (a ++ b) (c ++ d) -> length a = length c -> Forall2 P a c /\ Forall2 P b d.
Proof.
  intros F H. apply Forall2_app_inv_l in F. destruct F as (l1 & l2 & Fa & Fb & E).
  apply app_inj_len in E; [|rewrite <- (F2_len Fa); congruence]. destruct E as [-> ->]. auto.
Qed.

(** One operation on the pushed handle. *)
Lemma one_step arrs hs cs (w : world) h c o st' x (f : world -> nat -> outcome world) :
  rel_recs 2 arrs w -> Forall2 (rel_h arrs w) hs cs -> rel_h arrs w h c ->
  spec_step 2 o (mkS arrs (hs ++ [h])) = Some (st', x) ->
  (forall u, chai_step 2 o u = plain (f u (length hs))) ->
  (f (rebuf (cs ++ [c]) w) (length cs) = lift cs (f (rebuf [c] w) 0)) ->
  (exists h', s_hs st' = hs ++ [h']) ->
  exists w1 c1 h1, f (rebuf [c] w) 0 = Ok w1 /\ w_bufs w1 = [c1] /\ s_hs st' = hs ++ [h1] /\
    rel_recs 2 (s_arrs st') (rebuf [] w1) /\ Forall2 (rel_h (s_arrs st') (rebuf [] w1)) hs cs /\ rel_h (s_arrs st') (rebuf [] w1) h1 c1.
Proof.
  intros Rr F Hh Sp Ef Fr (h1 & Eh).
  assert (R0 : R 2 (mkS arrs (hs ++ [h])) (rebuf (cs ++ [c]) w)).
  { apply R_split. split; [exact Rr|]. apply Forall2_app; [exact F|]. constructor; [exact Hh|constructor]. }
  destruct (step_refines R0 Sp) as (w' & Ew & R1). rewrite Ef in Ew. rewrite (F2_len F), Fr in Ew. unfold plain in Ew.
  destruct (f (rebuf [c] w) 0) as [w1| |]; cbn [lift bind] in Ew; try discriminate. injection Ew as <- <-.
  destruct R1 as [Rr1 F1]. rewrite Eh in F1. cbn [rebuf w_bufs] in F1.
  apply Forall2_app_inv_l in F1. destruct F1 as (l1 & l2 & Fa & Fb & El).
  assert (Ll : length l1 = length cs) by (rewrite <- (F2_len Fa); exact (F2_len F)).
  assert (l1 = cs /\ l2 = w_bufs w1) as [-> ->].
  { apply app_inj_len in El; [|symmetry; exact Ll]. destruct El; split; congruence. }
  inversion Fb as [|? c1 ? l Hc Fn]; subst. inversion Fn; subst. exists w1, c1, h1.
  split; [reflexivity|]. split; [congruence|]. split; [exact Eh|]. split; [exact Rr1|]. split; [exact Fa|exact Hc].
Qed.

Lemma put_last {A} (l : list A) x y : put (l ++ [x]) (length l) y = l ++ [y].
Proof. rewrite put_upd by (rewrite app_length; cbn; lia). apply upd_app_last. Qed.
Lemma put_nth {A} (l : list A) i j x : i < length l -> nth_error (put l i x) j = if i =? j then Some x else nth_error l j.
Proof. intros H. rewrite put_upd by exact H. apply nth_upd. exact H. Qed.

(** move of the inner array [i] through its host handle *)
Lemma ir_move L ids Ch Cd (w : world) i d c s touch :
  IRel L ids Ch Cd w -> nth_error L i = Some d -> nth_error Ch i = Some c -> s < 2 -> (d_vals d <> [] -> d_cur d <> s) ->
  exists w1 c1, on_handle w c (fun u k => chai_move 2 u k (Some s) touch) = Ok (w1, c1) /\
    IRel (upd L i (mkD (d_vals d) s touch)) ids (upd Ch i c1) Cd w1.
Proof.
  intros (arrs & Hh & Hd & Rr & Fh & Fd & Nd & Li & Lh & En & Sl & Dv) Hi Hc Ls Nc.
  pose proof (nth_lt Hi) as Hn. destruct (@nth_some _ ids i) as (id & Hid); [lia|]. destruct (@nth_some _ Hh i) as (h & Hhi); [lia|].
  destruct (F2_nth Fh Hhi) as (c0 & Hc0 & Rh). rewrite Hc in Hc0. injection Hc0 as <-.
  pose proof (En i d id Hi Hid) as (a & Ha & Va & Ca). pose proof (Sl i d id h Hi Hid Hhi) as (S1 & S2 & S3).
  pose proof (nth_lt Ha) as Lid.
  assert (Fa : Forall2 (rel_h arrs w) (Hh ++ Hd) (Ch ++ Cd)) by (apply Forall2_app; assumption).
  assert (Lc : length Hh = length Ch) by exact (F2_len Fh).
  assert (exists arrs' h', spec_step 2 (CMove (length (Hh ++ Hd)) (Some s) touch) (mkS arrs ((Hh ++ Hd) ++ [h])) = Some (mkS arrs' ((Hh ++ Hd) ++ [h']), None) /\
    h_arr h' = Some id /\ h_const h' = false /\ (d_vals d <> [] -> h_space h' = Some s) /\
    (forall j, j <> id -> nth_error arrs' j = nth_error arrs j) /\
    entry arrs' (mkD (d_vals d) s touch) id) as (arrs' & h' & Sp & T1 & T2 & T3 & O' & E').
  { cbn [spec_step]. unfold spec_move, arr_of. cbn [s_hs s_arrs]. rewrite nth_app_last, S1, Ha. rewrite Va in *.
    destruct (d_vals d) as [|x v] eqn:Ev.
    - exists arrs, h. split; [reflexivity|]. split; [exact S1|]. split; [exact S2|]. split; [congruence|]. split; [reflexivity|].
      exists a. split; [exact Ha|]. cbn [d_vals]. split; [exact Va|congruence].
    - destruct (Ca ltac:(discriminate)) as [Ec Ed]. rewrite Ec. specialize (Nc ltac:(discriminate)).
      apply Nat.eqb_neq in Nc. rewrite Nc. pose proof Ls as Ls'. apply Nat.ltb_lt in Ls'. rewrite Ls'. cbn [andb orb Nat.leb negb]. rewrite S2. cbn [negb andb].
      rewrite put_last. eexists _, _. split; [reflexivity|]. cbn [h_arr h_const h_space].
      split; [first [exact S1|reflexivity]|]. split; [first [exact S2|reflexivity]|]. split; [reflexivity|]. split.
      + intros j Nj. rewrite put_nth by exact Lid. destruct (Nat.eqb_spec id j); [congruence|reflexivity].
      + eexists. rewrite put_nth by exact Lid. rewrite Nat.eqb_refl. split; [reflexivity|]. cbn. split; [reflexivity|]. auto. }
  destruct (@one_step arrs (Hh ++ Hd) (Ch ++ Cd) w h c _ _ _ (fun u k => chai_move 2 u k (Some s) touch) Rr Fa Rh Sp) as (w1 & c1 & h1 & Ew & Eb & Es & Rr1 & F1 & Rh1).
  { intros u. reflexivity. }
  { apply frame_move. }
  { eexists. reflexivity. }
  cbn [s_hs s_arrs] in *. apply app_inv_head in Es. injection Es as <-.
  exists (rebuf [] w1), c1. split.
  { unfold on_handle. rewrite Ew. cbn [bind]. rewrite Eb. reflexivity. }
  destruct (F2_split F1 Lc) as [F1h F1d].
  assert (Es : forall j (d' : idesc), nth_error (upd L i (mkD (d_vals d) s touch)) j = Some d' -> (j = i /\ d' = mkD (d_vals d) s touch) \/ (j <> i /\ nth_error L j = Some d')).
  { intros j d' H. rewrite nth_upd in H by exact Hn. destruct (Nat.eqb_spec i j) as [<-|Nj]; [injection H as <-; auto|right; auto]. }
  exists arrs', (upd Hh i h'), Hd. split; [exact Rr1|]. split; [apply F2_upd; assumption|]. split; [exact F1d|]. split; [exact Nd|].
  rewrite !upd_length. split; [exact Li|]. split; [exact Lh|]. split; [|split].
  - intros j d' id' H H'. destruct (Es j d' H) as [[-> ->]|[Nj Hj]].
    + rewrite Hid in H'. injection H' as <-. exact E'.
    + destruct (En j d' id' Hj H') as (a' & Q1 & Q2 & Q3). exists a'. split; [|auto]. rewrite O'; [exact Q1|].
      intros ->. apply Nj. exact (nodup_nth Nd H' Hid).
  - intros j d' id' h0 H H' Hx. destruct (Es j d' H) as [[-> ->]|[Nj Hj]].
    + rewrite Hid in H'. injection H' as <-. rewrite nth_upd in Hx by lia. rewrite Nat.eqb_refl in Hx. injection Hx as <-. split; [exact T1|]. split; [exact T2|exact T3].
    + rewrite nth_upd in Hx by lia. destruct (Nat.eqb_spec i j); [congruence|]. exact (Sl j d' id' h0 Hj H' Hx).
  - destruct Dv as [->|[Ld Dv]]; [left; reflexivity|right]. split; [exact Ld|].
    intros j d' id' h0 H H' Hx. destruct (Es j d' H) as [[-> ->]|[Nj Hj]]; [exact (Dv i d id' h0 Hi H' Hx)|exact (Dv j d' id' h0 Hj H' Hx)].
Qed.

(** The handle of the inner array [i] used in the space where the array is *)
Lemma ir_handle L ids Ch Cd (w : world) arrs Hh Hd i d id c s :
  Forall2 (rel_h arrs w) Hh Ch -> Forall2 (rel_h arrs w) Hd Cd -> length ids = length L -> length Hh = length L ->
  (forall i d id h, nth_error L i = Some d -> nth_error ids i = Some id -> nth_error Hh i = Some h -> slot id (d_vals d) (d_cur d) h) ->
  (Hd = [] \/ length Hd = length L /\
      forall i d id h, nth_error L i = Some d -> nth_error ids i = Some id -> nth_error Hd i = Some h -> slot id (d_vals d) 1 h) ->
  nth_error L i = Some d -> nth_error ids i = Some id -> d_cur d = s ->
  nth_error Ch i = Some c \/ nth_error Cd i = Some c /\ s = 1 ->
  exists h, rel_h arrs w h c /\ slot id (d_vals d) s h.
Proof.
  intros Fh Fd Li Lh Sl Dv Hi Hid Es [Hc|[Hc E1]].
  - pose proof (nth_lt Hi) as Hn. destruct (@nth_some _ Hh i) as (h & Hhi); [lia|]. destruct (F2_nth Fh Hhi) as (c0 & Hc0 & Rh).
    rewrite Hc in Hc0. injection Hc0 as <-. exists h. split; [exact Rh|]. rewrite <- Es. exact (Sl i d id h Hi Hid Hhi).
  - destruct Dv as [->|[Ld Dv]].
    + inversion Fd; subst. destruct i; discriminate.
    + pose proof (nth_lt Hi) as Hn. destruct (@nth_some _ Hd i) as (h & Hhi); [lia|]. destruct (F2_nth Fd Hhi) as (c0 & Hc0 & Rh).
      rewrite Hc in Hc0. injection Hc0 as <-. exists h. split; [exact Rh|]. rewrite E1. exact (Dv i d id h Hi Hid Hhi).
Qed.

Lemma ir_read L ids Ch Cd (w : world) i d c s j v :
  IRel L ids Ch Cd w -> nth_error L i = Some d -> d_cur d = s -> nth_error Ch i = Some c \/ nth_error Cd i = Some c /\ s = 1 ->
  nth_error (d_vals d) j = Some (Some v) -> chai_read (rebuf [c] w) 0 j s = Ok v.
Proof.
  intros (arrs & Hh & Hd & Rr & Fh & Fd & Nd & Li & Lh & En & Sl & Dv) Hi Es Hc Hv.
  pose proof (nth_lt Hi) as Hn. destruct (@nth_some _ ids i) as (id & Hid); [lia|].
  destruct (ir_handle Fh Fd Li Lh Sl Dv Hi Hid Es Hc) as (h & Rh & (S1 & S2 & S3)).
  pose proof (En i d id Hi Hid) as (a & Ha & Va & Ca).
  assert (Nv : d_vals d <> []) by (destruct (d_vals d); [destruct j; discriminate|discriminate]).
  destruct (Ca Nv) as [Ec Ed]. specialize (S3 Nv).
  assert (R0 : R 2 (mkS arrs [h]) (rebuf [c] w)) by (apply R_split; split; [exact Rr|constructor; [exact Rh|constructor]]).
  assert (Sp : spec_step 2 (CRead 0 j s) (mkS arrs [h]) = Some (mkS arrs [h], Some v)).
  { cbn [spec_step s_hs nth_error]. unfold arr_of. cbn [s_arrs]. rewrite S1, Ha, S3, Ec, Es, Va, Hv. cbn [eqo]. rewrite Nat.eqb_refl. reflexivity. }
  destruct (step_refines R0 Sp) as (w' & Ew & _). cbn [chai_step] in Ew. destruct (chai_read (rebuf [c] w) 0 j s); cbn [bind] in Ew; try discriminate. injection Ew as _ ->. reflexivity.
Qed.

Lemma ir_write L ids Ch Cd (w : world) i d c s j v :
  IRel L ids Ch Cd w -> nth_error L i = Some d -> d_cur d = s -> nth_error Ch i = Some c \/ nth_error Cd i = Some c /\ s = 1 ->
  d_dirty d = true -> j < length (d_vals d) ->
  exists w1, on_handle w c (fun u k => chai_write u k j s v) = Ok (w1, c) /\
    IRel (upd L i (mkD (put (d_vals d) j (Some v)) (d_cur d) (d_dirty d))) ids Ch Cd w1.
Proof.
  intros (arrs & Hh & Hd & Rr & Fh & Fd & Nd & Li & Lh & En & Sl & Dv) Hi Es Hc Di Hj.
  pose proof (nth_lt Hi) as Hn. destruct (@nth_some _ ids i) as (id & Hid); [lia|].
  destruct (ir_handle Fh Fd Li Lh Sl Dv Hi Hid Es Hc) as (h & Rh & (S1 & S2 & S3)).
  pose proof (En i d id Hi Hid) as (a & Ha & Va & Ca). pose proof (nth_lt Ha) as Lid.
  assert (Nv : d_vals d <> []) by (destruct (d_vals d); [cbn in Hj; lia|discriminate]).
  destruct (Ca Nv) as [Ec Ed]. specialize (S3 Nv).
  assert (Fa : Forall2 (rel_h arrs w) (Hh ++ Hd) (Ch ++ Cd)) by (apply Forall2_app; assumption).
  assert (Lc : length Hh = length Ch) by exact (F2_len Fh).
  assert (Sp : spec_step 2 (CWrite (length (Hh ++ Hd)) j s v) (mkS arrs ((Hh ++ Hd) ++ [h])) =
    Some (mkS (put arrs id (Some (mkL (put (d_vals d) j (Some v)) (Some s) true))) ((Hh ++ Hd) ++ [h]), None)).
  { cbn [spec_step s_hs]. rewrite nth_app_last. unfold arr_of. cbn [s_arrs]. rewrite S1, Ha, S2, S3, Ec, Es, Ed, Di, Va. cbn [eqo negb andb]. rewrite Nat.eqb_refl.
    apply Nat.ltb_lt in Hj. rewrite Hj. reflexivity. }
  destruct (@one_step arrs (Hh ++ Hd) (Ch ++ Cd) w h c _ _ _ (fun u k => chai_write u k j s v) Rr Fa Rh Sp) as (w1 & c1 & h1 & Ew & Eb & E1 & Rr1 & F1 & Rh1).
  { intros u. reflexivity. }
  { apply frame_write. }
  { eexists. reflexivity. }
  cbn [s_hs s_arrs] in *. clear E1.
  assert (c1 = c) as ->.
  { revert Ew. unfold chai_write. cbn [rebuf w_blocks w_recs w_bufs aget nth_error bind]. destruct (nonnull (c_ptr c)) as [p| |]; cbn [bind]; try discriminate.
    destruct (live (w_blocks w) p) as [b| |]; cbn [bind]; try discriminate. destruct (k_space b =? s); cbn [bind]; try discriminate.
    destruct (aset (k_data b) j _) as [e| |]; cbn [bind]; try discriminate. destruct (aset (w_blocks w) p _) as [bs| |]; cbn [bind]; try discriminate.
    intros E. injection E as <-. cbn [w_bufs] in Eb. congruence. }
  exists (rebuf [] w1). split; [unfold on_handle; rewrite Ew; cbn [bind]; rewrite Eb; reflexivity|].
  destruct (F2_split F1 Lc) as [F1h F1d].
  assert (Np : put (d_vals d) j (Some v) <> []).
  { rewrite put_upd by exact Hj. intros E. apply (f_equal (@length _)) in E. rewrite upd_length in E. cbn in E. lia. }
  assert (Es' : forall k (d' : idesc), nth_error (upd L i (mkD (put (d_vals d) j (Some v)) (d_cur d) (d_dirty d))) k = Some d' ->
    (k = i /\ d' = mkD (put (d_vals d) j (Some v)) (d_cur d) (d_dirty d)) \/ (k <> i /\ nth_error L k = Some d')).
  { intros k d' H. rewrite nth_upd in H by exact Hn. destruct (Nat.eqb_spec i k) as [<-|Nj]; [injection H as <-; auto|right; auto]. }
  eexists _, Hh, Hd. split; [exact Rr1|]. split; [exact F1h|]. split; [exact F1d|]. split; [exact Nd|].
  rewrite !upd_length. split; [exact Li|]. split; [exact Lh|]. split; [|split].
  - intros k d' id' H H'. destruct (Es' k d' H) as [[-> ->]|[Nj Hk]].
    + rewrite Hid in H'. injection H' as <-. eexists. rewrite put_nth by exact Lid. rewrite Nat.eqb_refl. split; [reflexivity|]. cbn. split; [reflexivity|]. rewrite Es, Di. auto.
    + destruct (En k d' id' Hk H') as (a' & Q1 & Q2 & Q3). exists a'. split; [|auto]. rewrite put_nth by exact Lid.
      destruct (Nat.eqb_spec id id') as [<-|]; [|exact Q1]. exfalso. apply Nj. exact (nodup_nth Nd H' Hid).
  - intros k d' id' h0 H H' Hx. destruct (Es' k d' H) as [[-> ->]|[Nj Hk]]; [|exact (Sl k d' id' h0 Hk H' Hx)].
    destruct (Sl i d id' h0 Hi H' Hx) as (Q1 & Q2 & Q3). split; [exact Q1|]. split; [exact Q2|]. intros _. exact (Q3 Nv).
  - destruct Dv as [->|[Ld Dv]]; [left; reflexivity|right]. split; [exact Ld|].
    intros k d' id' h0 H H' Hx. destruct (Es' k d' H) as [[-> ->]|[Nj Hk]]; [|exact (Dv k d' id' h0 Hk H' Hx)].
    destruct (Dv i d id' h0 Hi H' Hx) as (Q1 & Q2 & Q3). split; [exact Q1|]. split; [exact Q2|]. intros _. exact (Q3 Nv).
Qed.

(** Reallocation of the inner array [i] on the host; handles on the device are not kept track of. *)
Lemma ir_realloc L ids Ch (w : world) i d c size cap :
  IRel L ids Ch [] w -> nth_error L i = Some d -> nth_error Ch i = Some c -> (d_vals d <> [] -> d_cur d = 0) -> size <= length (d_vals d) ->
  exists w1 c1 ids', on_handle w c (fun u k => chai_reallocate 2 u k size 0 cap) = Ok (w1, c1) /\
    IRel (upd L i (mkD (kept size cap (d_vals d)) 0 true)) ids' (upd Ch i c1) [] w1.
Proof.
  intros (arrs & Hh & Hd & Rr & Fh & Fd & Nd & Li & Lh & En & Sl & Dv) Hi Hc E0 Hs.
  assert (Hd = []) as -> by (inversion Fd; reflexivity). clear Fd Dv.
  pose proof (nth_lt Hi) as Hn. destruct (@nth_some _ ids i) as (id & Hid); [lia|]. destruct (@nth_some _ Hh i) as (h & Hhi); [lia|].
  destruct (F2_nth Fh Hhi) as (c0 & Hc0 & Rh). rewrite Hc in Hc0. injection Hc0 as <-.
  pose proof (En i d id Hi Hid) as (a & Ha & Va & Ca). pose proof (Sl i d id h Hi Hid Hhi) as (S1 & S2 & S3). pose proof (nth_lt Ha) as Lid.
  set (v' := kept size cap (d_vals d)).
  assert (Sp : spec_step 2 (CRealloc (length Hh) size 0 cap) (mkS arrs (Hh ++ [h])) =
    Some (mkS (put arrs id None ++ [Some (mkL v' (Some 0) true)]) (Hh ++ [mkH (Some (length arrs)) (Some 0) false]), None)).
  { cbn [spec_step s_hs]. rewrite nth_app_last. unfold arr_of. cbn [s_arrs]. rewrite S1, Ha, S2. cbn [Nat.ltb Nat.leb negb andb Nat.eqb].
    assert (B : ((size =? 0) || (eqo (h_space h) 0 && eqo (l_cur a) 0 && (size <=? length (l_vals a))))%bool = true).
    { destruct (size =? 0) eqn:Ez; [reflexivity|]. apply Nat.eqb_neq in Ez. cbn [orb]. assert (Nv : d_vals d <> []) by (destruct (d_vals d); [cbn in Hs; lia|discriminate]).
      rewrite (S3 Nv), (proj1 (Ca Nv)), (E0 Nv), Va. cbn. apply Nat.leb_le. exact Hs. }
    rewrite B. rewrite put_last, Va. unfold v', kept. rewrite firstn_length. replace (Nat.min (Nat.min cap size) (length (d_vals d))) with (Nat.min cap size) by lia. reflexivity. }
  destruct (@one_step arrs Hh Ch w h c _ _ _ (fun u k => chai_reallocate 2 u k size 0 cap) Rr Fh Rh Sp) as (w1 & c1 & h1 & Ew & Eb & E1 & Rr1 & F1 & Rh1).
  { intros u. reflexivity. }
  { apply frame_realloc. }
  { eexists. reflexivity. }
  cbn [s_hs s_arrs] in *. apply app_inv_head in E1. injection E1 as <-.
  exists (rebuf [] w1), c1, (upd ids i (length arrs)). split; [unfold on_handle; rewrite Ew; cbn [bind]; rewrite Eb; reflexivity|].
  assert (Es' : forall k (d' : idesc), nth_error (upd L i (mkD v' 0 true)) k = Some d' -> (k = i /\ d' = mkD v' 0 true) \/ (k <> i /\ nth_error L k = Some d')).
  { intros k d' H. rewrite nth_upd in H by exact Hn. destruct (Nat.eqb_spec i k) as [<-|Nj]; [injection H as <-; auto|right; auto]. }
  assert (Bd : forall k id', nth_error ids k = Some id' -> id' < length arrs).
  { intros k id' H. destruct (@nth_some _ L k) as (dk & Hk); [apply nth_lt in H; lia|]. destruct (En k dk id' Hk H) as (a' & Ha' & _). exact (nth_lt Ha'). }
  assert (Lp : length (put arrs id None) = length arrs) by (rewrite put_upd by exact Lid; apply upd_length).
  eexists _, (upd Hh i _), []. split; [exact Rr1|]. split; [apply F2_upd; [exact F1|exact Rh1]|]. split; [constructor|]. split; [|split; [|split; [|split; [|split]]]].
  - apply NoDup_nth_error. intros k k' Hk E. rewrite upd_length in Hk. rewrite !nth_upd in E by lia.
    destruct (Nat.eqb_spec i k) as [E1|N1], (Nat.eqb_spec i k') as [E2|N2]; [congruence| | |].
    + symmetry in E. apply Bd in E. lia.
    + apply Bd in E. lia.
    + destruct (@nth_some _ ids k) as (z & Hz); [lia|]. rewrite Hz in E. symmetry in E. exact (nodup_nth Nd Hz E).
  - rewrite !upd_length. exact Li.
  - rewrite !upd_length. exact Lh.
  - intros k d' id' H H'. destruct (Es' k d' H) as [[-> ->]|[Nj Hk]].
    + rewrite nth_upd in H' by lia. rewrite Nat.eqb_refl in H'. injection H' as <-. eexists. rewrite <- Lp, nth_app_last. split; [reflexivity|]. cbn. auto.
    + rewrite nth_upd in H' by lia. destruct (Nat.eqb_spec i k); [congruence|]. destruct (En k d' id' Hk H') as (a' & Q1 & Q2 & Q3). exists a'. split; [|auto].
      rewrite nth_app_lt by (rewrite Lp; exact (Bd k id' H')). rewrite put_nth by exact Lid. destruct (Nat.eqb_spec id id') as [<-|]; [|exact Q1].
      exfalso. apply Nj. exact (nodup_nth Nd H' Hid).
  - intros k d' id' h0 H H' Hx. destruct (Es' k d' H) as [[-> ->]|[Nj Hk]].
    + rewrite nth_upd in H' by lia. rewrite nth_upd in Hx by lia. rewrite Nat.eqb_refl in H', Hx. injection H' as <-. injection Hx as <-. split; [reflexivity|]. split; [reflexivity|]. reflexivity.
    + rewrite nth_upd in H' by lia. rewrite nth_upd in Hx by lia. destruct (Nat.eqb_spec i k); [congruence|]. exact (Sl k d' id' h0 Hk H' Hx).
  - left. reflexivity.
Qed.

(** A new, empty inner array *)
Lemma ir_new L ids Ch (w : world) :
  IRel L ids Ch [] w ->
  exists c1 ids', w_bufs (chai_new 2 (rebuf [] w)) = [c1] /\ IRel (L ++ [mkD [] 0 true]) ids' (Ch ++ [c1]) [] (rebuf [] (chai_new 2 (rebuf [] w))).
Proof.
  intros (arrs & Hh & Hd & Rr & Fh & Fd & Nd & Li & Lh & En & Sl & Dv).
  assert (R0 : R 2 (mkS arrs Hh) (rebuf Ch w)) by (apply R_split; split; assumption).
  assert (Sp : spec_step 2 CNew (mkS arrs Hh) = Some (mkS (arrs ++ [Some (mkL [] None false)]) (Hh ++ [mkH (Some (length arrs)) None false]), None)) by reflexivity.
  destruct (step_refines R0 Sp) as (w' & Ew & R1). cbn [chai_step] in Ew. injection Ew as <-.
  destruct R1 as [Rr1 F1]. unfold chai_new in F1. cbn [w_bufs rebuf w_recs s_hs] in F1.
  eexists _, (ids ++ [length arrs]). split; [reflexivity|]. cbn [rebuf w_recs].
  assert (Bd : forall k id', nth_error ids k = Some id' -> id' < length arrs).
  { intros k id' H. destruct (@nth_some _ L k) as (dk & Hk); [apply nth_lt in H; lia|]. destruct (En k dk id' Hk H) as (a' & Ha' & _). exact (nth_lt Ha'). }
  assert (Ap : forall {A} (l : list A) x k y, nth_error (l ++ [x]) k = Some y -> (k = length l /\ y = x) \/ (k < length l /\ nth_error l k = Some y)).
  { intros A l x k y H. destruct (Nat.lt_ge_cases k (length l)) as [Hk|Hk].
    - rewrite nth_app_lt in H by exact Hk. auto.
    - rewrite nth_error_app2 in H by exact Hk. destruct (k - length l) as [|q] eqn:Ek; [|destruct q; discriminate]. injection H as <-. left. split; [lia|reflexivity]. }
  exists (arrs ++ [Some (mkL [] None false)]), (Hh ++ [mkH (Some (length arrs)) None false]), [].
  split; [exact Rr1|]. split; [exact F1|]. split; [constructor|]. split; [|split; [|split; [|split; [|split]]]].
  - apply NoDup_nth_error. intros k k' Hk E. rewrite app_length in Hk. cbn in Hk. destruct (@nth_some _ (ids ++ [length arrs]) k) as (z & Hz); [rewrite app_length; cbn; lia|].
    rewrite Hz in E. symmetry in E. apply Ap in Hz, E. destruct Hz as [[-> Ez]|[Lk Hz]], E as [[-> Ez']|[Lk' Hz']]; subst; try reflexivity.
    + apply Bd in Hz'. lia.
    + apply Bd in Hz. lia.
    + exact (nodup_nth Nd Hz Hz').
  - rewrite !app_length. cbn. lia.
  - rewrite !app_length. cbn. lia.
  - intros k d' id' H H'. apply Ap in H, H'. destruct H as [[-> ->]|[Lk H]].
    + destruct H' as [[_ ->]|[Lk _]]; [|lia]. eexists. rewrite nth_app_last. split; [reflexivity|]. cbn. split; [reflexivity|congruence].
    + destruct H' as [[-> _]|[_ H']]; [lia|]. destruct (En k d' id' H H') as (a' & Q1 & Q2 & Q3). exists a'. split; [|auto]. rewrite nth_app_lt by exact (nth_lt Q1). exact Q1.
  - intros k d' id' h0 H H' Hx. apply Ap in H, H', Hx. destruct H as [[-> ->]|[Lk H]].
    + destruct H' as [[_ ->]|[Lk _]]; [|lia]. destruct Hx as [[_ ->]|[Lk _]]; [|lia]. split; [reflexivity|]. split; [reflexivity|]. cbn. congruence.
    + destruct H' as [[-> _]|[_ H']]; [lia|]. destruct Hx as [[-> _]|[_ Hx]]; [lia|]. exact (Sl k d' id' h0 H H' Hx).
  - left. reflexivity.
Qed.

(** What happens to the handles when the outer block is copied. *)
Lemma ir_drop L ids Ch Cd (w : world) : IRel L ids Ch Cd w -> IRel L ids Ch [] w.
Proof.
  intros (arrs & Hh & Hd & Rr & Fh & Fd & Nd & Li & Lh & En & Sl & Dv). exists arrs, Hh, []. repeat (split; [first [assumption|constructor]|]). left. reflexivity.
Qed.
Lemma ir_to_device L ids Ch Cd (w : world) : IRel L ids Ch Cd w -> (forall i d, nth_error L i = Some d -> d_cur d = 1) -> IRel L ids Ch Ch w.
Proof.
  intros (arrs & Hh & Hd & Rr & Fh & Fd & Nd & Li & Lh & En & Sl & Dv) C1. exists arrs, Hh, Hh. repeat (split; [assumption|]).
  right. split; [exact Lh|]. intros i d id h H H' Hx. rewrite <- (C1 i d H). exact (Sl i d id h H H' Hx).
Qed.
Lemma ir_to_host L ids Ch Cd (w : world) : IRel L ids Ch Cd w -> (forall i d, nth_error L i = Some d -> d_cur d = 1) -> length Cd = length L -> IRel L ids Cd Cd w.
Proof.
  intros (arrs & Hh & Hd & Rr & Fh & Fd & Nd & Li & Lh & En & Sl & Dv) C1 Lc.
  destruct Dv as [->|[Ld Dv]].
  - inversion Fd; subst. cbn in Lc. exists arrs, [], []. destruct L; [|discriminate]. split; [exact Rr|]. split; [constructor|]. split; [constructor|]. split; [exact Nd|]. split; [exact Li|]. split; [reflexivity|].
    split; [exact En|]. split; [intros [|i] d id h H; discriminate|]. left. reflexivity.
  - exists arrs, Hd, Hd. repeat (split; [assumption|]). split; [|right; auto]. intros i d id h H H' Hx. rewrite (C1 i d H). exact (Dv i d id h H H' Hx).
Qed.
Lemma ir_len L ids Ch Cd (w : world) : IRel L ids Ch Cd w -> length Ch = length L.
Proof. intros (arrs & Hh & Hd & Rr & Fh & Fd & Nd & Li & Lh & _). rewrite <- Lh. symmetry. exact (F2_len Fh). Qed.
Lemma ir_empty : IRel [] [] [] [] (empty_world V).
Proof.
  exists [], [], []. split; [exact (proj1 (R_empty V 2))|]. split; [constructor|]. split; [constructor|]. split; [constructor|]. split; [reflexivity|]. split; [reflexivity|].
  split; [intros [|i] d id H; discriminate|]. split; [intros [|i] d id h H; discriminate|]. left. reflexivity.
Qed.
End Inner.
