(** Nested arrays refine lists of lists. *)
From Coq Require Import List Arith Lia Bool.
From Verif Require Import Base BaseProofs Chai ChaiSpec ChaiProofs Nested NestedSpec NestedFrame NestedInner NestedOuter.
Import ListNotations.
Set Implicit Arguments.
Unset Strict Implicit.

Section Nested.
Variable V : Type.
Notation iworld := (Chai.world V).

Definition holds (dh : cells) (C : list cbuf) : Prop := forall i c, nth_error C i = Some c -> nth_error dh i = Some (Some c).
Definition mv (s : nat) (touch : bool) (d : idesc V) : idesc V := mkD (d_vals d) s touch.

Lemma skipn_cons {A} (l : list A) k x : nth_error l k = Some x -> skipn k l = x :: skipn (S k) l.
Proof. revert k. induction l as [|y l IH]; intros [|k] H; try discriminate; [injection H as ->; reflexivity|exact (IH k H)]. Qed.
Lemma firstn_upd {A} (l : list A) k x : firstn k (upd l k x) = firstn k l.
Proof. revert k. induction l as [|y l IH]; intros [|k]; cbn; auto. f_equal. apply IH. Qed.
Lemma skipn_upd {A} (l : list A) k x : skipn (S k) (upd l k x) = skipn (S k) l.
Proof. revert k. induction l as [|y l IH]; intros [|k]; cbn; auto. exact (IH k). Qed.
Lemma firstn_S {A} (l : list A) k x : nth_error l k = Some x -> firstn (S k) l = firstn k l ++ [x].
Proof. revert k. induction l as [|y l IH]; intros [|k] H; try discriminate; [injection H as ->; reflexivity|]. change (y :: firstn (S k) l = y :: (firstn k l ++ [x])). f_equal. exact (IH k H). Qed.

Lemma move_inner_ok cap cur od g bh pd dd h c s touch n : s < 2 -> c_ptr c = Some bh -> n <= cap ->
  forall m k L ids Ch Cd dh ow (iw : iworld), k + m = n -> length L = n ->
  OInv cap cur od g bh pd dh dd ow -> nth_error (w_bufs ow) h = Some c -> IRel L ids Ch Cd iw -> holds dh Ch ->
  (forall j d, k <= j -> nth_error L j = Some d -> d_cur d <> s) ->
  exists ow' iw' dh' Ch', for_up m (fun i w =>
    let '(ow, iw) := w in
    c <- chai_read ow h i 0 ;;
    '(iw1, c1) <- on_handle iw c (fun w k => chai_move 2 w k (Some s) touch) ;;
    ow1 <- chai_write ow h i 0 c1 ;;
    Ok (ow1, iw1)) k (ow, iw) = Ok (ow', iw') /\
    OInv cap cur od g bh pd dh' dd ow' /\ w_bufs ow' = w_bufs ow /\ holds dh' Ch' /\
    IRel (firstn k L ++ map (mv s touch) (skipn k L)) ids Ch' Cd iw'.
Proof.
  intros Ls Hp Ln. induction m as [|m IH]; intros k L ids Ch Cd dh ow iw Ek El HO Hb HI Hh Hcur.
  - cbn [for_up]. exists ow, iw, dh, Ch. split; [reflexivity|]. repeat (split; [first [assumption|reflexivity]|]).
    rewrite skipn_all2 by lia. rewrite firstn_all2 by lia. cbn. rewrite app_nil_r. exact HI.
  - cbn [for_up]. pose proof (ir_len HI) as Lc. destruct (@nth_some _ L k) as (d & Hd); [lia|]. destruct (@nth_some _ Ch k) as (e & He); [lia|].
    rewrite (o_read0 HO Hb Hp (Hh k e He)). cbn [bind].
    destruct (@ir_move V L ids Ch Cd iw k d e s touch HI Hd He Ls) as (iw1 & c1 & Em & HI1).
    { intros _. exact (Hcur k d (le_n k) Hd). }
    rewrite Em. cbn [bind]. destruct (@o_write0 _ _ _ _ _ _ _ _ _ _ _ k c1 HO Hb Hp) as (ow1 & Ew & Eb & HO1); [lia|]. rewrite Ew. cbn [bind].
    destruct (IH (k + 1) (upd L k (mkD (d_vals d) s touch)) ids (upd Ch k c1) Cd (upd dh k (Some c1)) ow1 iw1) as (ow' & iw' & dh' & Ch' & Ef & HO' & Eb' & Hh' & HI').
    { lia. } { rewrite upd_length. exact El. } { exact HO1. } { rewrite Eb. exact Hb. } { exact HI1. }
    { intros i x Hx. rewrite nth_upd in Hx by lia. assert (k < length dh) by (destruct HO as (_ & _ & _ & E & _); lia). rewrite nth_upd by assumption.
      destruct (k =? i); [injection Hx as <-; reflexivity|exact (Hh i x Hx)]. }
    { intros j x Hj Hx. rewrite nth_upd in Hx by lia. destruct (Nat.eqb_spec k j); [lia|]. apply (Hcur j x); [lia|exact Hx]. }
    exists ow', iw', dh', Ch'. split; [exact Ef|]. split; [exact HO'|]. split; [congruence|]. split; [exact Hh'|].
    assert (E : firstn (k + 1) (upd L k (mkD (d_vals d) s touch)) ++ map (mv s touch) (skipn (k + 1) (upd L k (mkD (d_vals d) s touch))) = firstn k L ++ map (mv s touch) (skipn k L)).
    { rewrite Nat.add_1_r, skipn_upd. rewrite (skipn_cons Hd). rewrite (firstn_S (x := mkD (d_vals d) s touch)) by (rewrite nth_upd by lia; rewrite Nat.eqb_refl; reflexivity).
      rewrite firstn_upd, <- app_assoc. reflexivity. }
    rewrite <- E. exact HI'.
Qed.

Lemma upd_same {A} (l : list A) i x : nth_error l i = Some x -> upd l i x = l.
Proof. revert i. induction l as [|y l IH]; intros [|i] H; try discriminate; cbn; [injection H as ->; reflexivity|]. f_equal. exact (IH i H). Qed.
Lemma nth_error_firstn {A} (l : list A) k i : i < k -> nth_error (firstn k l) i = nth_error l i.
Proof. revert k i. induction l as [|y l IH]; intros [|k] [|i] H; cbn; auto; try lia. apply IH. lia. Qed.

(** ** The invariant *)
Definition descs (st : nspec V) : list (idesc V) := map (fun x => mkD (i_vals x) (v_cur st) (i_dirty x)) (v_in st).
Definition hrel (g cap bh : nat) (pd : option nat) (o : ohandle) (c : cbuf) : Prop :=
  c_rec c = Some (o_gen o) /\ c_const c = false /\ o_gen o <= g /\
  (o_gen o = g -> c_cap c = cap /\ match o_space o with Some 0 => c_ptr c = Some bh | Some 1 => c_ptr c = pd /\ pd <> None | _ => False end).
Definition hinit (o : ohandle) (c : cbuf) : Prop :=
  c_rec c = Some 0 /\ c_cap c = 0 /\ c_const c = false /\ o_gen o = 0 /\ o_space o = None /\ o_size o = 0.
Definition Inv (st : nspec V) (w : nworld V) : Prop :=
  n_sizes w = map o_size (v_hs st) /\
  (v_cap st = 0 /\ v_in st = [] /\ v_gen st = 0 /\ OInit (n_outer w) /\ Forall2 hinit (v_hs st) (w_bufs (n_outer w)) /\ IRel [] [] [] [] (n_inner w) \/
   exists bh pd dh dd ids Ch Cd,
     OInv (v_cap st) (v_cur st) (v_dirty st) (v_gen st) bh pd dh dd (n_outer w) /\
     Forall2 (hrel (v_gen st) (v_cap st) bh pd) (v_hs st) (w_bufs (n_outer w)) /\
     length (v_in st) <= v_cap st /\ holds dh Ch /\ IRel (descs st) ids Ch Cd (n_inner w) /\
     (v_cur st = 1 \/ v_dirty st = false -> exists d, dd = Some d /\ holds d Cd /\ length Cd = length (v_in st))).

Lemma F2_put {A B} (P : A -> B -> Prop) l m i x y : i < length l -> Forall2 P l m -> P x y -> Forall2 P (put l i x) (upd m i y).
Proof. intros H F Hx. rewrite put_upd by exact H. apply F2_upd; assumption. Qed.
Lemma map_put (l : list ohandle) i o o' : nth_error l i = Some o -> o_size o' = o_size o -> map o_size (put l i o') = map o_size l.
Proof.
  intros H E. rewrite put_upd by exact (nth_lt H). revert i H. induction l as [|y l IH]; intros [|i] H; try discriminate; cbn; [injection H as ->; congruence|]. f_equal. exact (IH i H).
Qed.
Lemma descs_len st : length (descs st) = length (v_in st).
Proof. apply map_length. Qed.
Lemma descs_cur st i d : nth_error (descs st) i = Some d -> d_cur d = v_cur st.
Proof. unfold descs. rewrite nth_error_map. destruct (nth_error (v_in st) i); [|discriminate]. intros E. injection E as <-. reflexivity. Qed.

Lemma hrel_set g cap bh pd pd' n o o' c hs bs : (pd = None \/ pd' = pd) -> nth_error hs n = Some o ->
  Forall2 (hrel g cap bh pd) hs bs -> hrel g cap bh pd' o' c -> Forall2 (hrel g cap bh pd') (put hs n o') (upd bs n c).
Proof.
  intros Hpd Hn F H. apply F2_put; [exact (nth_lt Hn)| |exact H]. eapply F2_impl; [|exact F]. intros x y (Q1 & Q2 & Q3 & Q4). split; [exact Q1|]. split; [exact Q2|]. split; [exact Q3|].
  intros E. destruct (Q4 E) as [Q5 Q6]. split; [exact Q5|]. destruct (o_space x) as [[|[|]]|]; auto. destruct Hpd as [->| ->]; [destruct Q6; congruence|exact Q6].
Qed.

Lemma move_refines st w n s touch st' : Inv st w -> nspec_move st n s touch = Some st' -> exists w', n_move w n s touch = Ok w' /\ Inv st' w'.
Proof.
  intros (Sz & HI) E. unfold nspec_move in E. destruct (nth_error (v_hs st) n) as [o|] eqn:Hn; [|discriminate].
  assert (Hs : nth_error (n_sizes w) n = Some (o_size o)) by (rewrite Sz, nth_error_map, Hn; reflexivity).
  unfold n_move. rewrite (aget_some Hs). cbn [bind]. unfold move_nested.
  destruct HI as [HI|HI].
  - pose proof HI as (C0 & I0 & G0 & HO & F & _). destruct (F2_nth F Hn) as (c & Hc & (Q1 & Q2 & Q3 & Q4 & Q5)). rewrite (aget_some Hc). cbn [bind]. rewrite Q1, Q2.
    assert (st' = st) as -> by (destruct s; [|congruence]; rewrite C0 in E; destruct (negb _); [discriminate|]; cbn in E; congruence).
    exists w. split; [destruct s; cbn; destruct w; reflexivity|]. split; [exact Sz|left; exact HI].
  - destruct HI as (bh & pd & dh & dd & ids & Ch & Cd & HO & F & Lc & Hh & HR & HD). destruct (F2_nth F Hn) as (c & Hc & (Q1 & Q2 & Q3 & Q4)). rewrite (aget_some Hc). cbn [bind]. rewrite Q1.
    destruct s as [s|]; [|injection E as <-; exists w; split; [destruct w; reflexivity|]; split; [exact Sz|right; exists bh, pd, dh, dd, ids, Ch, Cd; auto 10]].
    destruct (o_gen o =? v_gen st) eqn:Eg; [|discriminate]. cbn [negb] in E. apply Nat.eqb_eq in Eg. destruct (Q4 Eg) as [Q5 Q6]. rewrite Q5, Eg.
    pose proof HO as (H1 & _ & _ & H4 & H5 & H6 & H7).
    assert (E0 : (v_cap st =? 0) = false) by (apply Nat.eqb_neq; lia). rewrite E0 in *. rewrite (live_some H1). cbn [bind r_last is_last].
    assert (W : whole (v_cap st) (v_gen st) c) by (split; [congruence|split; assumption]).
    destruct (s =? v_cur st) eqn:Es.
    + apply Nat.eqb_eq in Es. subst s. injection E as <-. rewrite Nat.eqb_refl. cbn [negb]. rewrite !andb_false_r. cbn [bind].
      destruct (o_move_same touch HO Hc W) as (ow' & Em & Eb & HO'). rewrite Em. cbn [bind]. eexists. split; [reflexivity|].
      split; [cbn [n_sizes v_hs]; rewrite (@map_put _ _ _ _ Hn) by reflexivity; exact Sz|]. right. exists bh, pd, dh, dd, ids, Ch, Cd. cbn [n_outer n_inner v_cap v_cur v_dirty v_gen v_hs v_in].
      split; [exact HO'|]. split.
      { rewrite Eb. apply F2_put; [exact (nth_lt Hn)|exact F|]. split; [cbn; congruence|]. split; [reflexivity|]. split; [exact Q3|]. intros _. cbn [o_space c_cap c_ptr].
        split; [reflexivity|]. destruct (v_cur st) as [|[|]]; [reflexivity| |lia]. cbn [Nat.eqb]. split; [reflexivity|]. destruct pd; [discriminate|]. destruct dd; [contradiction|]. destruct H5; discriminate. }
      split; [exact Lc|]. split; [exact Hh|]. split; [exact HR|]. intros [X|X]; apply HD; [auto|]. apply orb_false_iff in X. tauto.
    + destruct ((s <? 2) && (o_size o =? length (v_in st)) && ((v_cur st =? 1) || eqo (o_space o) 0))%bool eqn:Ec; [|discriminate]. injection E as <-.
      apply andb_prop in Ec. destruct Ec as [Ec E3]. apply andb_prop in Ec. destruct Ec as [E1 E2]. apply Nat.ltb_lt in E1. apply Nat.eqb_eq in E2. apply Nat.eqb_neq in Es.
      assert (Es' : (v_cur st =? s) = false) by (apply Nat.eqb_neq; auto). rewrite Es'. cbn [negb]. rewrite !andb_true_r. rewrite E2.
      assert (LD : length (descs st) = length (v_in st)) by apply descs_len.
      assert (Mm : map (mv s touch) (descs st) = map (fun x => mkD (i_vals x) s (i_dirty x)) (map (moved touch) (v_in st))) by (unfold descs; rewrite !map_map; reflexivity).
      assert (Dc : forall i d, nth_error (descs st) i = Some d -> d_cur d = v_cur st) by (intros i d; apply descs_cur).
      unfold move_inner. destruct (v_cur st) as [|[|]] eqn:Ecur; [| |lia].
      * (* host to device *)
        assert (s = 1) as -> by lia. cbn [Nat.eqb orb] in *. assert (Hp : c_ptr c = Some bh) by (destruct (o_space o) as [[|]|]; try discriminate; exact Q6).
        destruct (@move_inner_ok _ _ _ _ _ _ _ n c 1 touch (length (v_in st)) E1 Hp Lc (length (v_in st)) 0 (descs st) ids Ch Cd dh (n_outer w) (n_inner w) eq_refl LD HO Hc HR Hh) as (ow1 & iw1 & dh1 & Ch1 & Em & HO1 & Eb1 & Hh1 & HR1); [intros j d _ Hd; rewrite (Dc j d Hd); lia|].
        rewrite Em. cbn [bind]. cbn [firstn skipn app] in HR1.
        destruct (@o_move_01 _ _ _ _ _ _ _ _ n c touch HO1) as (ow2 & bd & d & Em2 & Eb2 & HO2 & Pd & Dd); [rewrite Eb1; exact Hc|exact W|]. rewrite Em2. cbn [bind]. eexists. split; [reflexivity|].
        split; [cbn [n_sizes v_hs]; rewrite (@map_put _ _ _ _ Hn) by (symmetry; exact E2); exact Sz|]. right. cbn [n_outer n_inner v_cap v_cur v_dirty v_gen v_hs v_in].
        assert (HN : hrel (v_gen st) (v_cap st) bh (Some bd) (mkO (o_gen o) (Some 1) (length (v_in st))) (mkBuf (Some bd) (v_cap st) (Some (v_gen st)) false)).
        { split; [cbn; congruence|]. split; [reflexivity|]. split; [exact Q3|]. intros _. cbn. split; [reflexivity|]. split; [reflexivity|discriminate]. }
        assert (HF : Forall2 (hrel (v_gen st) (v_cap st) bh (Some bd)) (put (v_hs st) n (mkO (o_gen o) (Some 1) (length (v_in st)))) (w_bufs ow2)).
        { rewrite Eb2, Eb1. eapply hrel_set; [|exact Hn|exact F|exact HN]. destruct Pd as [->| ->]; auto. }
        destruct (v_dirty st) eqn:Edt.
        -- subst d. exists bh, (Some bd), dh1, (Some dh1), ids, Ch1, Ch1. split; [exact HO2|]. split; [exact HF|]. split; [rewrite map_length; exact Lc|]. split; [exact Hh1|]. split.
           { unfold descs. cbn [v_in v_cur]. rewrite <- Mm. eapply ir_to_device; [exact HR1|]. intros i d Hd. rewrite nth_error_map in Hd. destruct (nth_error (descs st) i); [|discriminate]. injection Hd as <-. reflexivity. }
           intros _. exists dh1. split; [reflexivity|]. split; [exact Hh1|]. rewrite (ir_len HR1), !map_length. exact LD.
        -- destruct HD as (d0 & Ed & Hd0 & Ld0); [right; reflexivity|]. rewrite Dd in Ed. injection Ed as <-. exists bh, (Some bd), dh1, (Some d), ids, Ch1, Cd. split; [exact HO2|]. split; [exact HF|]. split; [rewrite map_length; exact Lc|]. split; [exact Hh1|]. split.
           { unfold descs. cbn [v_in v_cur]. rewrite <- Mm. exact HR1. }
           intros _. exists d. rewrite map_length. auto.
      * (* device to host *)
        assert (s = 0) as -> by lia. cbn [Nat.eqb orb bind] in *. destruct pd as [bd|], dd as [d|]; try contradiction; [|destruct H5; discriminate].
        destruct HD as (d0 & Ed & Hd0 & Ld0); [left; reflexivity|]. injection Ed as <-.
        destruct (o_move_10 touch HO Hc W) as (ow1 & Em1 & Eb1 & HO1). rewrite Em1. cbn [bind].
        set (c' := mkBuf (Some bh) (v_cap st) (Some (v_gen st)) false) in *.
        assert (Hc' : nth_error (w_bufs ow1) n = Some c') by (rewrite Eb1, nth_upd by exact (nth_lt Hc); rewrite Nat.eqb_refl; reflexivity).
        set (Ch0 := if v_dirty st then Cd else Ch).
        assert (HR0 : IRel (descs st) ids Ch0 Cd (n_inner w)).
        { unfold Ch0. destruct (v_dirty st); [|exact HR]. eapply ir_to_host; [exact HR|exact Dc|rewrite Ld0; symmetry; exact LD]. }
        assert (Hh0 : holds (if v_dirty st then d else dh) Ch0) by (unfold Ch0; destruct (v_dirty st); assumption).
        destruct (@move_inner_ok _ _ _ _ _ _ _ n c' 0 touch (length (v_in st)) E1 eq_refl Lc (length (v_in st)) 0 (descs st) ids Ch0 Cd _ ow1 (n_inner w) eq_refl LD HO1 Hc' HR0 Hh0) as (ow2 & iw2 & dh2 & Ch2 & Em & HO2 & Eb2 & Hh2 & HR2); [intros j x _ Hx; rewrite (Dc j x Hx); lia|].
        rewrite Em. cbn [bind]. cbn [firstn skipn app] in HR2. eexists. split; [reflexivity|].
        split; [cbn [n_sizes v_hs]; rewrite (@map_put _ _ _ _ Hn) by (symmetry; exact E2); exact Sz|]. right. cbn [n_outer n_inner v_cap v_cur v_dirty v_gen v_hs v_in].
        exists bh, (Some bd), dh2, (Some d), ids, Ch2, Cd. split; [exact HO2|]. split.
        { rewrite Eb2, Eb1. eapply hrel_set; [|exact Hn|exact F|]; [auto|]. split; [cbn; congruence|]. split; [reflexivity|]. split; [exact Q3|]. intros _. split; reflexivity. }
        split; [rewrite map_length; exact Lc|]. split; [exact Hh2|]. split; [unfold descs; cbn [v_in v_cur]; rewrite <- Mm; exact HR2|].
        intros _. exists d. rewrite map_length. auto.
Qed.

Lemma copy_push st w n o : Inv st w -> nth_error (v_hs st) n = Some o ->
  exists c, nth_error (w_bufs (n_outer w)) n = Some c /\
    Inv (mkNS (v_in st) (v_cap st) (v_cur st) (v_dirty st) (v_gen st) (v_hs st ++ [o])) (mkN (push_buf (n_outer w) c) (n_sizes w ++ [o_size o]) (n_inner w)) /\
    length (w_bufs (n_outer w)) = length (v_hs st).
Proof.
  intros (Sz & HI) Hn. destruct HI as [(C0 & I0 & G0 & HO & F & HR)|(bh & pd & dh & dd & ids & Ch & Cd & HO & F & Lc & Hh & HR & HD)].
  - destruct (F2_nth F Hn) as (c & Hc & Q). exists c. split; [exact Hc|]. split; [|symmetry; exact (F2_len F)]. split; [cbn; rewrite map_app, Sz; reflexivity|]. left.
    cbn. repeat (split; [assumption|]). split; [|exact HR]. apply Forall2_app; [exact F|]. constructor; [exact Q|constructor].
  - destruct (F2_nth F Hn) as (c & Hc & Q). exists c. split; [exact Hc|]. split; [|symmetry; exact (F2_len F)]. split; [cbn; rewrite map_app, Sz; reflexivity|]. right.
    exists bh, pd, dh, dd, ids, Ch, Cd. cbn [n_outer n_inner v_cap v_cur v_dirty v_gen v_hs v_in push_buf w_bufs]. split; [exact HO|]. split; [|auto].
    apply Forall2_app; [exact F|]. constructor; [exact Q|constructor].
Qed.

Lemma usable_inv st w n s o : Inv st w -> usable st n s = Some o -> v_in st <> [] -> exists bh pd dh dd ids Ch Cd c,
     OInv (v_cap st) (v_cur st) (v_dirty st) (v_gen st) bh pd dh dd (n_outer w) /\
     Forall2 (hrel (v_gen st) (v_cap st) bh pd) (v_hs st) (w_bufs (n_outer w)) /\
     length (v_in st) <= v_cap st /\ holds dh Ch /\ IRel (descs st) ids Ch Cd (n_inner w) /\
     (v_cur st = 1 \/ v_dirty st = false -> exists d, dd = Some d /\ holds d Cd /\ length Cd = length (v_in st)) /\
     nth_error (w_bufs (n_outer w)) n = Some c /\ s = v_cur st /\ (s = 0 -> c_ptr c = Some bh) /\ (s = 1 -> c_ptr c = pd).
Proof.
  intros (Sz & HI) U Ne. unfold usable in U. destruct (nth_error (v_hs st) n) as [o'|] eqn:Hn; [|discriminate].
  destruct ((o_gen o' =? v_gen st) && eqo (o_space o') s && (s =? v_cur st))%bool eqn:Eb; [|discriminate]. injection U as ->.
  apply andb_prop in Eb. destruct Eb as [Eb E3]. apply andb_prop in Eb. destruct Eb as [E1 E2]. apply Nat.eqb_eq in E1, E3. apply eqo_some in E2.
  destruct HI as [(C0 & I0 & _)|(bh & pd & dh & dd & ids & Ch & Cd & HO & F & Lc & Hh & HR & HD)]; [congruence|].
  destruct (F2_nth F Hn) as (c & Hc & (Q1 & Q2 & Q3 & Q4)). destruct (Q4 E1) as [Q5 Q6]. rewrite E2 in Q6.
  exists bh, pd, dh, dd, ids, Ch, Cd, c. do 8 (split; [assumption|]). destruct s as [|[|]]; [| |contradiction]; split; intros X; try discriminate; [exact Q6|exact (proj1 Q6)].
Qed.

(** The handle of the inner array [i] as code in the current space finds it *)
Lemma find_handle st w n s o i x : Inv st w -> usable st n s = Some o -> nth_error (v_in st) i = Some x ->
  exists bh pd dh dd ids Ch Cd c e,
     OInv (v_cap st) (v_cur st) (v_dirty st) (v_gen st) bh pd dh dd (n_outer w) /\
     Forall2 (hrel (v_gen st) (v_cap st) bh pd) (v_hs st) (w_bufs (n_outer w)) /\
     length (v_in st) <= v_cap st /\ holds dh Ch /\ IRel (descs st) ids Ch Cd (n_inner w) /\
     (v_cur st = 1 \/ v_dirty st = false -> exists d, dd = Some d /\ holds d Cd /\ length Cd = length (v_in st)) /\
     nth_error (w_bufs (n_outer w)) n = Some c /\ s = v_cur st /\ (s = 0 -> c_ptr c = Some bh) /\
     chai_read (n_outer w) n i s = Ok e /\ nth_error (descs st) i = Some (mkD (i_vals x) s (i_dirty x)) /\
     (s = 0 /\ nth_error Ch i = Some e \/ nth_error Cd i = Some e /\ s = 1).
Proof.
  intros HI U Hx. assert (Ne : v_in st <> []) by (destruct (v_in st); [destruct i; discriminate|discriminate]). pose proof (nth_lt Hx) as Li.
  destruct (usable_inv HI U Ne) as (bh & pd & dh & dd & ids & Ch & Cd & c & HO & F & Lc & Hh & HR & HD & Hc & Es & P0 & P1).
  pose proof HO as (_ & _ & _ & _ & H5 & H6 & _). pose proof (ir_len HR) as Ln. rewrite descs_len in Ln.
  assert (De : nth_error (descs st) i = Some (mkD (i_vals x) s (i_dirty x))) by (unfold descs; rewrite nth_error_map, Hx, Es; reflexivity).
  destruct (Nat.eq_dec s 0) as [->|N0].
  - destruct (@nth_some _ Ch i) as (e & He); [lia|]. exists bh, pd, dh, dd, ids, Ch, Cd, c, e. do 9 (split; [assumption|]). split; [exact (o_read0 HO Hc (P0 eq_refl) (Hh i e He))|]. auto.
  - assert (E1 : s = 1) by lia. destruct HD as (d & -> & Hd & Ld); [left; congruence|]. destruct (@nth_some _ Cd i) as (e & He); [lia|]. destruct pd as [bd|]; [|contradiction].
    exists bh, (Some bd), dh, (Some d), ids, Ch, Cd, c, e. do 5 (split; [assumption|]). split; [intros _; exists d; auto|]. do 3 (split; [assumption|]).
    split; [rewrite E1; exact (o_read1 HO Hc (P1 E1) (Hd i e He))|]. auto.
Qed.

Lemma descs_put st i y : i < length (v_in st) ->
  descs (mkNS (put (v_in st) i y) (v_cap st) (v_cur st) (v_dirty st) (v_gen st) (v_hs st)) = upd (descs st) i (mkD (i_vals y) (v_cur st) (i_dirty y)).
Proof.
  intros H. unfold descs. cbn [v_in v_cur]. rewrite put_upd by exact H. clear H. revert i. generalize (v_in st). intros l.
  induction l as [|z l IH]; intros [|i]; cbn; auto. f_equal. apply (IH i).
Qed.

Theorem nstep_refines o st w st' x : Inv st w -> nspec_step o st = Some (st', x) -> exists w', n_step o w = Ok (w', x) /\ Inv st' w'.
Proof.
  intros HI E. destruct o as [n es|n s touch|n s|n|n i size cap|n i j s v|n i j s]; cbn [nspec_step n_step] in *.
  - destruct (nth_error (v_hs st) n) as [o|] eqn:Hn; [|discriminate]. destruct (nspec_move _ _ _ _) as [st1|] eqn:Em; [|discriminate]. injection E as <- <-.
    destruct (copy_push HI Hn) as (c & Hc & HP & Lb). unfold n_copy. rewrite (aget_some Hc). cbn [bind].
    assert (Hs : nth_error (n_sizes w) n = Some (o_size o)) by (rewrite (proj1 HI), nth_error_map, Hn; reflexivity). rewrite (aget_some Hs). cbn [bind]. rewrite Lb.
    destruct (move_refines HP Em) as (w' & Ew & HI'). rewrite Ew. cbn [bind]. eauto.
  - destruct (nspec_move st n s touch) as [st1|] eqn:Em; [|discriminate]. injection E as <- <-. destruct (move_refines HI Em) as (w' & Ew & HI'). rewrite Ew. cbn [bind]. eauto.
  - destruct (nth_error (v_hs st) n) as [o|] eqn:Hn; [|discriminate]. destruct ((o_gen o =? v_gen st) && (s =? v_cur st) && negb (v_cap st =? 0))%bool eqn:Eb; [|discriminate]. injection E as <- <-.
    apply andb_prop in Eb. destruct Eb as [Eb E3]. apply andb_prop in Eb. destruct Eb as [E1 E2]. apply Nat.eqb_eq in E1, E2. subst s. apply negb_true_iff, Nat.eqb_neq in E3.
    destruct HI as (Sz & [(C0 & _)|(bh & pd & dh & dd & ids & Ch & Cd & HO & F & Lc & Hh & HR & HD)]); [congruence|].
    destruct (F2_nth F Hn) as (c & Hc & (Q1 & _)). rewrite E1 in Q1. destruct (o_touch HO Hc Q1) as (ow' & Ew & Eb & HO'). unfold n_touch. rewrite Ew. cbn [bind]. eexists. split; [reflexivity|].
    split; [exact Sz|]. right. exists bh, pd, dh, dd, ids, Ch, Cd. cbn [n_outer n_inner v_cap v_cur v_dirty v_gen v_hs v_in]. rewrite Eb. do 5 (split; [assumption|]). intros [X|X]; [apply HD; auto|discriminate].
  - destruct (nth_error (v_hs st) n) as [o|] eqn:Hn; [|discriminate].
    destruct ((o_gen o =? v_gen st) && (o_size o =? length (v_in st)) && ((length (v_in st) =? 0) || ((v_cur st =? 0) && eqo (o_space o) 0)))%bool eqn:Eb; [|discriminate]. cbn [negb] in E.
    apply andb_prop in Eb. destruct Eb as [Eb E3]. apply andb_prop in Eb. destruct Eb as [E1 E2]. apply Nat.eqb_eq in E1, E2.
    assert (Hs : nth_error (n_sizes w) n = Some (length (v_in st))) by (rewrite (proj1 HI), nth_error_map, Hn; cbn; congruence).
    unfold n_push. pose proof (nth_lt Hn) as Ln. destruct HI as (Sz & HI).
    assert (SzN : forall o', o_size o' = length (v_in st) + 1 -> upd (n_sizes w) n (length (v_in st) + 1) = map o_size (put (v_hs st) n o')).
    { intros o' Eo. rewrite put_upd by exact Ln. rewrite Sz, <- Eo. clear. generalize (v_hs st). intros l. revert n. induction l as [|z l IH]; intros [|n]; cbn; auto. f_equal. apply IH. }
    assert (HoldN : forall dh Ch c1, holds dh Ch -> length Ch = length (v_in st) -> length (v_in st) < length dh -> holds (upd dh (length (v_in st)) (Some c1)) (Ch ++ [c1])).
    { intros dh Ch c1 Hh Lh Ld k z Hz. rewrite nth_upd by exact Ld. destruct (Nat.eqb_spec (length (v_in st)) k) as [Ek|Nk].
      - rewrite <- Ek, <- Lh, nth_app_last in Hz. injection Hz as <-. reflexivity.
      - pose proof (nth_lt Hz) as Lz. rewrite app_length in Lz. cbn in Lz. rewrite nth_app_lt in Hz by lia. exact (Hh k z Hz). }
    destruct HI as [(C0 & I0 & G0 & HO & F & HR)|(bh & pd & dh & dd & ids & Ch & Cd & HO & F & Lc & Hh & HR & HD)].
    + destruct (F2_nth F Hn) as (c & Hc & (Q1 & Q2 & Q3 & Q4 & Q5)). rewrite (aget_some Hc), (aget_some Hs). cbn [bind]. rewrite C0, I0 in *. cbn [length Nat.ltb Nat.leb Nat.add Nat.mul] in *. injection E as <- <-.
      rewrite Q2. cbn [Nat.ltb Nat.leb Nat.add Nat.mul]. destruct (@o_realloc_init (n_outer w) n c 2 HO Hc Q1 Q3) as (ow & b & Eo & Eb & HO'); [lia|]. rewrite Eo. cbn [bind].
      destruct (ir_new HR) as (c1 & ids' & Ec & HR'). rewrite Ec. cbn [aget nth_error bind].
      assert (Hc' : nth_error (w_bufs ow) n = Some (mkBuf (Some b) 2 (Some 1) false)) by (rewrite Eb, nth_upd by exact (nth_lt Hc); rewrite Nat.eqb_refl; reflexivity).
      destruct (@o_write0 _ _ _ _ _ _ _ _ _ _ _ 0 c1 HO' Hc' eq_refl) as (ow1 & Eo1 & Eb1 & HO1); [lia|]. rewrite Eo1. cbn [bind].
      rewrite (aset_some _ Hs). cbn [bind]. eexists. split; [reflexivity|]. split; [cbn [n_sizes v_hs]; apply SzN; reflexivity|]. right.
      exists b, None, (upd (repeat None 2) 0 (Some c1)), None, ids', [c1], []. cbn [n_outer n_inner v_cap v_cur v_dirty v_gen v_hs v_in app]. rewrite G0.
      split; [exact HO1|]. split.
      { rewrite Eb1, Eb. apply F2_put; [exact Ln| |].
        - eapply F2_impl; [|exact F]. intros x y (X1 & X2 & X3 & X4 & X5 & X6). split; [congruence|]. split; [exact X3|]. split; [lia|]. intros X. lia.
        - split; [reflexivity|]. split; [reflexivity|]. split; [cbn; lia|]. intros _. split; reflexivity. }
      split; [cbn; lia|]. split; [exact (@HoldN (repeat None 2) [] c1 ltac:(intros [|k] z Hz; discriminate) eq_refl ltac:(cbn; lia))|]. split; [exact HR'|]. intros [X|X]; discriminate.
    + destruct (F2_nth F Hn) as (c & Hc & (Q1 & Q2 & Q3 & Q4)). destruct (Q4 E1) as [Q5 Q6]. rewrite (aget_some Hc), (aget_some Hs). cbn [bind]. rewrite Q5.
      assert (W : whole (v_cap st) (v_gen st) c) by (split; [congruence|split; assumption]). pose proof (ir_len HR) as LC. rewrite descs_len in LC. pose proof HO as (_ & _ & _ & H4 & _).
      destruct (v_cap st <? length (v_in st) + 1) eqn:El.
      * injection E as <- <-. apply Nat.ltb_lt in El.
        assert (v_cur st = 0 /\ c_ptr c = Some bh) as [Ecur Hp].
        { destruct (length (v_in st) =? 0) eqn:Ez; cbn [orb] in E3; [apply Nat.eqb_eq in Ez; destruct HO as (_ & _ & _ & _ & _ & _ & X); lia|].
          apply andb_prop in E3. destruct E3 as [E3 E4]. split; [apply Nat.eqb_eq; exact E3|]. apply eqo_some in E4. rewrite E4 in Q6. exact Q6. }
        rewrite Ecur in HO. destruct (@o_realloc _ _ _ _ _ _ _ _ _ _ (length (v_in st)) (2 * (length (v_in st) + 1)) HO Hc W Hp Lc) as (ow & b & Eo & Eb & HO'); [lia|]. rewrite Eo. cbn [bind].
        destruct (ir_new (ir_drop HR)) as (c1 & ids' & Ec & HR'). rewrite Ec. cbn [aget nth_error bind].
        assert (Hc' : nth_error (w_bufs ow) n = Some (mkBuf (Some b) (2 * (length (v_in st) + 1)) (Some (S (v_gen st))) false)) by (rewrite Eb, nth_upd by exact (nth_lt Hc); rewrite Nat.eqb_refl; reflexivity).
        destruct (@o_write0 _ _ _ _ _ _ _ _ _ _ _ (length (v_in st)) c1 HO' Hc' eq_refl) as (ow1 & Eo1 & Eb1 & HO1); [lia|]. rewrite Eo1. cbn [bind].
        rewrite (aset_some _ Hs). cbn [bind]. eexists. split; [reflexivity|]. split; [cbn [n_sizes v_hs]; apply SzN; reflexivity|]. right.
        eexists b, None, _, None, ids', (Ch ++ [c1]), []. cbn [n_outer n_inner v_cap v_cur v_dirty v_gen v_hs v_in app]. replace (v_gen st + 1) with (S (v_gen st)) by lia.
        split; [exact HO1|]. split.
        { rewrite Eb1, Eb. apply F2_put; [exact Ln| |].
          - eapply F2_impl; [|exact F]. intros x y (X1 & X2 & X3 & X4). split; [exact X1|]. split; [exact X2|]. split; [lia|]. intros X. lia.
          - split; [reflexivity|]. split; [reflexivity|]. split; [cbn; lia|]. intros _. split; reflexivity. }
        split; [rewrite app_length; cbn; lia|]. split.
        { apply HoldN; [|exact LC|rewrite app_length, firstn_length, repeat_length; lia]. intros k z Hz. pose proof (nth_lt Hz) as Lz.
          rewrite nth_app_lt by (rewrite firstn_length; lia). rewrite nth_error_firstn by lia. exact (Hh k z Hz). }
        split; [|intros [X|X]; discriminate].
        unfold descs in *. cbn [v_in v_cur]. rewrite map_app. cbn [map i_vals i_dirty]. rewrite Ecur in HR'. exact HR'.
      * destruct ((v_cur st =? 0) && eqo (o_space o) 0 && v_dirty st)%bool eqn:Eb; [|discriminate]. injection E as <- <-. apply Nat.ltb_ge in El.
        apply andb_prop in Eb. destruct Eb as [Eb E6]. apply andb_prop in Eb. destruct Eb as [E4 E5]. apply Nat.eqb_eq in E4. apply eqo_some in E5. rewrite E5 in Q6. cbn [bind].
        destruct (ir_new (ir_drop HR)) as (c1 & ids' & Ec & HR'). rewrite Ec. cbn [aget nth_error bind].
        destruct (@o_write0 _ _ _ _ _ _ _ _ _ _ _ (length (v_in st)) c1 HO Hc Q6) as (ow1 & Eo1 & Eb1 & HO1); [lia|]. rewrite Eo1. cbn [bind].
        rewrite (aset_some _ Hs). cbn [bind]. eexists. split; [reflexivity|]. split; [cbn [n_sizes v_hs]; apply SzN; reflexivity|]. right.
        eexists bh, pd, _, dd, ids', (Ch ++ [c1]), []. cbn [n_outer n_inner v_cap v_cur v_dirty v_gen v_hs v_in app]. rewrite E4, E6 in HO1.
        split; [exact HO1|]. split.
        { rewrite Eb1. rewrite <- (upd_same Hc). apply F2_put; [exact Ln|exact F|]. split; [exact Q1|]. split; [exact Q2|]. split; [exact Q3|]. intros _. split; [exact Q5|exact Q6]. }
        split; [rewrite app_length; cbn; lia|]. split; [apply HoldN; [exact Hh|exact LC|lia]|]. split; [|intros [X|X]; discriminate].
        unfold descs in *. cbn [v_in v_cur]. rewrite map_app. cbn [map i_vals i_dirty]. rewrite E4 in HR'. exact HR'.
  - destruct (usable st n 0) as [o|] eqn:U; [|discriminate]. destruct (nth_error (v_in st) i) as [y|] eqn:Hy; [|discriminate].
    destruct (v_dirty st && (size <=? length (i_vals y)))%bool eqn:Eb; [|discriminate]. injection E as <- <-. apply andb_prop in Eb. destruct Eb as [E1 E2]. apply Nat.leb_le in E2.
    destruct (find_handle HI U Hy) as (bh & pd & dh & dd & ids & Ch & Cd & c & e & HO & F & Lc & Hh & HR & HD & Hc & Es & P0 & Er & De & [[_ He]|[_ X]]); [|discriminate].
    unfold n_realloc. rewrite Er. cbn [bind].
    destruct (@ir_realloc V (descs st) ids Ch (n_inner w) i _ e size cap (ir_drop HR) De He) as (iw & c1 & ids' & Ew & HR'); [reflexivity|exact E2|]. rewrite Ew. cbn [bind].
    pose proof (nth_lt Hy) as Li. destruct (@o_write0 _ _ _ _ _ _ _ _ _ _ _ i c1 HO Hc (P0 eq_refl)) as (ow & Eo & Eb & HO'); [lia|]. rewrite Eo. cbn [bind]. eexists. split; [reflexivity|].
    split; [exact (proj1 HI)|]. right. exists bh, pd, (upd dh i (Some c1)), dd, ids', (upd Ch i c1), []. cbn [n_outer n_inner v_cap v_cur v_dirty v_gen v_hs v_in]. rewrite Eb.
    split; [exact HO'|]. split; [exact F|]. split; [rewrite put_upd by exact Li; rewrite upd_length; exact Lc|]. split.
    { intros k z Hz. pose proof (ir_len HR) as Ln. rewrite descs_len in Ln. assert (i < length dh) by (destruct HO as (_ & _ & _ & X & _); lia). rewrite nth_upd in Hz by lia. rewrite nth_upd by assumption.
      destruct (i =? k); [injection Hz as <-; reflexivity|exact (Hh k z Hz)]. }
    split; [rewrite descs_put by exact Li; cbn [i_vals i_dirty]; rewrite <- Es; exact HR'|]. rewrite <- Es, E1. intros [X|X]; discriminate.
  - destruct (usable st n s) as [o|] eqn:U; [|discriminate]. destruct (nth_error (v_in st) i) as [y|] eqn:Hy; [|discriminate].
    destruct (i_dirty y && (j <? length (i_vals y)))%bool eqn:Eb; [|discriminate]. injection E as <- <-. apply andb_prop in Eb. destruct Eb as [E1 E2]. apply Nat.ltb_lt in E2.
    destruct (find_handle HI U Hy) as (bh & pd & dh & dd & ids & Ch & Cd & c & e & HO & F & Lc & Hh & HR & HD & Hc & Es & P0 & Er & De & He).
    unfold n_write. rewrite Er. cbn [bind].
    destruct (@ir_write V (descs st) ids Ch Cd (n_inner w) i _ e s j v HR De) as (iw & Ew & HR'); [reflexivity|tauto|exact E1|exact E2|]. rewrite Ew. cbn [bind]. eexists. split; [reflexivity|].
    pose proof (nth_lt Hy) as Li. split; [exact (proj1 HI)|]. right. exists bh, pd, dh, dd, ids, Ch, Cd. cbn [n_outer n_inner v_cap v_cur v_dirty v_gen v_hs v_in].
    split; [exact HO|]. split; [exact F|]. split; [rewrite put_upd by exact Li; rewrite upd_length; exact Lc|]. split; [exact Hh|].
    split; [rewrite descs_put by exact Li; cbn [i_vals i_dirty]; rewrite <- Es; exact HR'|]. rewrite put_upd by exact Li. rewrite upd_length. exact HD.
  - destruct (usable st n s) as [o|] eqn:U; [|discriminate]. destruct (nth_error (v_in st) i) as [y|] eqn:Hy; [|discriminate].
    destruct (nth_error (i_vals y) j) as [[v|]|] eqn:Ev; try discriminate. injection E as <- <-.
    destruct (find_handle HI U Hy) as (bh & pd & dh & dd & ids & Ch & Cd & c & e & HO & F & Lc & Hh & HR & HD & Hc & Es & P0 & Er & De & He).
    unfold n_read. rewrite Er. cbn [bind]. rewrite (@ir_read V (descs st) ids Ch Cd (n_inner w) i _ e s j v HR De eq_refl) by (first [tauto|exact Ev]). cbn [bind]. eauto.
Qed.

Lemma Inv_start : Inv (nspec_start V) (n_start V).
Proof.
  split; [reflexivity|]. left. split; [reflexivity|]. split; [reflexivity|]. split; [reflexivity|]. split; [reflexivity|]. split; [|apply ir_empty].
  constructor; [|constructor]. repeat split.
Qed.
Theorem nrun_refines l : forall st w st' ys, Inv st w -> nspec_run l st = Some (st', ys) -> exists w', n_run l w = Ok (w', ys) /\ Inv st' w'.
Proof.
  induction l as [|o l IH]; intros st w st' ys HR E; cbn [nspec_run n_run] in *.
  - injection E as <- <-. eauto.
  - destruct (nspec_step o st) as [[st1 x]|] eqn:E1; [|discriminate]. destruct (nspec_run l st1) as [[st2 zs]|] eqn:E2; [|discriminate]. injection E as <- <-.
    destruct (nstep_refines HR E1) as (w1 & Ew & HR1). rewrite Ew. cbn [bind]. destruct (IH _ _ _ _ HR1 E2) as (w2 & Ew2 & HR2). rewrite Ew2. cbn [bind]. eauto.
Qed.

(** ** The protocol does not change what is read *)
Lemma nstep_flat o st st' x : nspec_step o st = Some (st', x) -> nflat_step o (map (@i_vals V) (v_in st)) = Some (map (@i_vals V) (v_in st'), x).
Proof.
  assert (M : forall st n s touch st', nspec_move st n s touch = Some st' -> map (@i_vals V) (v_in st') = map (@i_vals V) (v_in st)).
  { clear. intros st n s touch st' E. unfold nspec_move in E. destruct (nth_error (v_hs st) n); [|discriminate]. destruct s as [s|]; [|injection E as <-; reflexivity].
    destruct (negb _); [discriminate|]. destruct (v_cap st =? 0); [injection E as <-; reflexivity|]. destruct (s =? v_cur st); [injection E as <-; reflexivity|].
    destruct (_ && _)%bool; [|discriminate]. injection E as <-. cbn [v_in]. rewrite map_map. reflexivity. }
  assert (P : forall (l : list (inner V)) i y z, nth_error l i = Some y -> map (@i_vals V) (put l i z) = put (map (@i_vals V) l) i (i_vals z)).
  { clear. intros l i y z H. pose proof (nth_lt H) as L. rewrite !put_upd by (try rewrite map_length; exact L). clear. revert i. induction l as [|a l IH]; intros [|i]; cbn; auto. f_equal. apply IH. }
  intros E. destruct o as [n es|n s touch|n s|n|n i size cap|n i j s v|n i j s]; cbn [nspec_step nflat_step] in *.
  - destruct (nth_error (v_hs st) n) as [o|]; [|discriminate]. destruct (nspec_move _ _ _ _) as [st1|] eqn:Em; [|discriminate]. injection E as <- <-. apply M in Em. rewrite Em. reflexivity.
  - destruct (nspec_move _ _ _ _) as [st1|] eqn:Em; [|discriminate]. injection E as <- <-. apply M in Em. rewrite Em. reflexivity.
  - destruct (nth_error (v_hs st) n) as [o|]; [|discriminate]. destruct (_ && _)%bool; [|discriminate]. injection E as <- <-. reflexivity.
  - destruct (nth_error (v_hs st) n) as [o|]; [|discriminate]. destruct (negb _); [discriminate|]. destruct (_ <? _); [|destruct (_ && _)%bool; [|discriminate]]; injection E as <- <-; cbn [v_in]; rewrite map_app; reflexivity.
  - destruct (usable st n 0); [|discriminate]. rewrite nth_error_map. destruct (nth_error (v_in st) i) as [y|] eqn:Hy; [|discriminate]. cbn [option_map]. destruct (_ && _)%bool; [|discriminate]. injection E as <- <-.
    cbn [v_in]. rewrite (P _ _ _ _ Hy). reflexivity.
  - destruct (usable st n s); [|discriminate]. rewrite nth_error_map. destruct (nth_error (v_in st) i) as [y|] eqn:Hy; [|discriminate]. cbn [option_map]. destruct (_ && _)%bool; [|discriminate]. injection E as <- <-.
    cbn [v_in]. rewrite (P _ _ _ _ Hy). reflexivity.
  - destruct (usable st n s); [|discriminate]. rewrite nth_error_map. destruct (nth_error (v_in st) i) as [y|] eqn:Hy; [|discriminate]. cbn [option_map]. destruct (nth_error (i_vals y) j) as [[v|]|]; try discriminate. injection E as <- <-. reflexivity.
Qed.
Theorem nrun_flat l : forall st st' ys, nspec_run l st = Some (st', ys) -> nflat_run l (map (@i_vals V) (v_in st)) = Some ys.
Proof.
  induction l as [|o l IH]; intros st st' ys E; cbn [nspec_run nflat_run] in *; [injection E as _ <-; reflexivity|].
  destruct (nspec_step o st) as [[st1 x]|] eqn:E1; [|discriminate]. destruct (nspec_run l st1) as [[st2 zs]|] eqn:E2; [|discriminate]. injection E as _ <-.
  rewrite (nstep_flat E1). rewrite (IH _ _ _ E2). reflexivity.
Qed.
End Nested.
