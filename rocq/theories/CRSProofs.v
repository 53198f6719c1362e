(** The entries of a CRSMatrix follow their columns: callbacks, insertion, removal. *)
From Coq Require Import List Arith ZArith Lia Bool Sorting.Sorted.
From Verif Require Import Base BaseProofs Mem MemProofs ArrayManipProofs BufferManip BufferManipProofs
  Sorted SortedSpec SortedProofs SortedProofs2 SortedProofs3 SortedArraySpec AoA AoASpec AoALayout AoAProofs AoAProofs2 AoAProofs4
  AoS AoSSpec SetsProofs SetsProofs2 Sparsity SparsitySpec SparsityProofs CRS CRSSpec.
From Verif Require ArrayManip.
Import ListNotations.
Set Implicit Arguments.
Unset Strict Implicit.

Section CRS.
Variable W : Type.
Variable chk tw : bool.
Notation kind := BMalloc.
Notation aoa := (aoa Z W).
Notation X := (aoa * nat)%type.
Notation matrix := (pattern W).
Notation P := (Z * W)%type.
Notation fv := (@fst Z W).
Notation fw := (@snd Z W).
Notation row := (list P * nat)%type.
Notation rows_t := (list row).
Notation aok := (@aok P Z W fv fw true tw true).
Notation iok := (@iok P Z W).
Notation rx := (@rx P Z W fv fw tw true).
Notation rowset := (@rowset P Z fv Z.ltb).
Notation rep := (@rep P Z W fv fw true tw true Z.ltb).
Notation pincr l := (StronglySorted (fun x y => (fst x <? fst y)%Z = true) l).
Notation LWs := (map (@LV W)).
Notation ent := (@ent P W fw).
Implicit Types a : aoa.
Implicit Types A B L : rows_t.
Implicit Types p : matrix.

(** ** The notifications *)
Ltac same_cells := rewrite ?map_app; cbn [map repeat]; rewrite ?map_app; lapp; reflexivity.

Lemma rx_ev Q A es C B pc s l l' (x : X) (f : buf W -> nat -> outcome (buf W)) :
  rx Q A es C B pc s l x -> length l' = length l ->
  (forall pw le sw b, length pw = snd x -> Forall2 (ent Q) l le -> mem tw b (pw ++ le ++ sw) ->
     oks (f b (snd x)) (fun b' => exists le', Forall2 (ent Q) l' le' /\ mem tw b' (pw ++ le' ++ sw))) ->
  oks (b <- f (ents (fst x)) (snd x) ;; Ok (set_ents b (fst x), snd x)) (rx Q A es C B pc s l').
Proof.
  intros (q & -> & -> & LC & LE & I & D) El Hf. destruct (D eq_refl) as (Ee & le & q' & F & M).
  eapply oks_bind.
  - eapply Hf; [|exact F|exact M]. rewrite Ee, !flat_length. reflexivity.
  - intros b (le' & F' & M'). apply oks_ok. exists q. rewrite El. split; auto. split; auto. split; auto. split; auto. split; [exact I|].
    intros _. split; [exact Ee|]. exists le', q'. split; auto.
Qed.
Lemma crs_ev_ok Q A es C B pc s l l' (x : X) nnz ws ev :
  rx Q A es C B pc s l x -> length l' = length l ->
  (forall pw le sw b, Forall2 (ent Q) l le -> mem tw b (pw ++ le ++ sw) ->
     oks (entry_event chk tw nnz ws ev b (length pw)) (fun b' => exists le', Forall2 (ent Q) l' le' /\ mem tw b' (pw ++ le' ++ sw))) ->
  oks (crs_ev chk tw nnz ws ev x) (rx Q A es C B pc s l').
Proof.
  intros R El H. destruct x as [a e]. unfold crs_ev.
  apply (rx_ev (f := entry_event chk tw nnz ws ev) R El). cbn [snd]. intros pw le sw b <-. apply H.
Qed.

Lemma f2_some Q es le : Forall2 (ent Q) (map Some es) le -> le = LWs (map fw es).
Proof. apply ent_some. Qed.
Lemma some_f2 Q es : Forall2 (ent Q) (map Some es) (LWs (map fw es)).
Proof. apply ent_some. reflexivity. Qed.
Lemma none_f2 n : Forall2 (ent (eq LN)) (repeat None n) (repeat LN n).
Proof. induction n; simpl; constructor; simpl; auto. Qed.
Lemma none_inv n le : Forall2 (ent (eq LN)) (repeat None n) le -> le = repeat LN n.
Proof. intros F. apply ent_none in F. destruct F as [F L]. apply ln_repeat in F. rewrite F, L. reflexivity. Qed.
Lemma live_f2 n le : length le = n -> Forall live le -> Forall2 (ent live) (repeat None n) le.
Proof. intros <-. induction 1; simpl; constructor; simpl; auto. Qed.
Lemma lws_app l1 l2 : LWs (map fw (l1 ++ l2)) = LWs (map fw l1) ++ LWs (map fw l2).
Proof. rewrite !map_app. reflexivity. Qed.

Lemma aget_fw (ws : list P) k w : nth_error ws k = Some w -> aget (map fw ws) k = Ok (fw w).
Proof. intros N. unfold aget. rewrite nth_error_map, N. reflexivity. Qed.

Lemma ev_insert A f1 g1 C B pc s x w : rx (eq LN) A (f1 ++ g1) C B pc s (map Some (f1 ++ g1) ++ [None]) x ->
  oks (crs_ev chk tw (length (f1 ++ g1)) [snd w] (EInsert (length f1)) x) (rx (eq LN) A (f1 ++ g1) C B pc s (map Some (f1 ++ w :: g1))).
Proof.
  intros R. eapply crs_ev_ok; [exact R|len|]. intros pw le sw b F M.
  apply Forall2_app_inv_l in F. destruct F as (l1 & l2 & F1 & F2 & ->). apply f2_some in F1. subst l1.
  apply (none_inv (n := 1)) in F2. subst l2. cbn [entry_event aget nth_error bind]. eapply oks_mono.
  - eapply ArrayManipProofs.emplace_ok with (p := pw) (xs := map fw f1) (ys := map fw g1) (s := sw); [|reflexivity|len|len].
    eapply mem_cast; [exact M|]. same_cells.
  - intros b' M'. exists (LWs (map fw (f1 ++ w :: g1))). split; [apply some_f2|].
    eapply mem_cast; [exact M'|]. same_cells.
Qed.
Lemma ev_set A es C B pc s x nnz ws k w f1 g : nth_error ws k = Some w -> length f1 = k ->
  rx (eq LN) A es C B pc s (map Some f1 ++ None :: g) x ->
  oks (crs_ev chk tw nnz (map fw ws) (ESet k k) x) (rx (eq LN) A es C B pc s (map Some (f1 ++ [w]) ++ g)).
Proof.
  intros N Lk R. eapply crs_ev_ok; [exact R|len|]. intros pw le sw b F M.
  apply Forall2_app_inv_l in F. destruct F as (l1 & l2 & F1 & F2 & ->). apply f2_some in F1. subst l1.
  inversion F2 as [|? c ? l3 Fc F3]; subst. simpl in Fc. subst c.
  cbn [entry_event]. rewrite (aget_fw N). cbn [bind]. eapply oks_mono.
  - eapply construct_ok with (p := pw ++ LWs (map fw f1)) (c := LN) (s := l3 ++ sw); [|len|simpl; auto].
    eapply mem_cast; [exact M|]. same_cells.
  - intros b' M'. exists (LWs (map fw (f1 ++ [w])) ++ l3). split; [apply Forall2_app; [apply some_f2|exact F3]|].
    eapply mem_cast; [exact M'|]. same_cells.
Qed.
Lemma ev_insertN A es C B pc s x nnz ws k w nLeft f1 g1 h1 : nth_error ws k = Some w ->
  rx (eq LN) A es C B pc s (map Some (f1 ++ g1) ++ repeat None (S nLeft) ++ map Some h1) x ->
  oks (crs_ev chk tw nnz (map fw ws) (EInsertN (S nLeft) k (length f1) (length f1 + length g1)) x)
      (rx (eq LN) A es C B pc s (map Some f1 ++ repeat None nLeft ++ map Some (w :: g1 ++ h1))).
Proof.
  intros N R. eapply crs_ev_ok; [exact R|len|]. intros pw le sw b F M.
  apply Forall2_app_inv_l in F. destruct F as (l1 & l2 & F1 & F2 & ->). apply f2_some in F1. subst l1.
  apply Forall2_app_inv_l in F2. destruct F2 as (l3 & l4 & F2 & F3 & ->). apply none_inv in F2. apply f2_some in F3. subst l3 l4.
  cbn [entry_event]. eapply oks_bind.
  - eapply ArrayManipProofs.shiftUp_ok with (p := pw) (xs := map fw f1) (ys := map fw g1) (s := LWs (map fw h1) ++ sw); [|reflexivity|len|len].
    eapply mem_cast; [exact M|]. same_cells.
  - intros b1 M1. cbn beta. rewrite (aget_fw N). cbn [bind].
    rewrite sub_ix_ok by lia. cbn [bind]. eapply oks_mono.
    + eapply construct_ok with (p := pw ++ LWs (map fw f1) ++ repeat LN nLeft) (c := LN) (s := LWs (map fw g1) ++ LWs (map fw h1) ++ sw); [|len|simpl; auto].
      eapply mem_cast; [exact M1|]. rewrite repeat_snoc. same_cells.
    + intros b' M'. exists (LWs (map fw f1) ++ repeat LN nLeft ++ LWs (map fw (w :: g1 ++ h1))). split.
      * apply Forall2_app; [apply some_f2|]. apply Forall2_app; [apply none_f2|apply some_f2].
      * eapply mem_cast; [exact M'|]. same_cells.
Qed.
Lemma ev_remove A f1 e g1 C B pc s x : rx (eq LN) A (f1 ++ e :: g1) C B pc s (map Some (f1 ++ e :: g1)) x ->
  oks (crs_ev chk tw (length (f1 ++ e :: g1)) [] (ERemove (length f1)) x) (rx (eq LN) A (f1 ++ e :: g1) C B pc s (map Some (f1 ++ g1) ++ [None])).
Proof.
  intros R. eapply crs_ev_ok; [exact R|len|]. intros pw le sw b F M. apply f2_some in F. subst le.
  cbn [entry_event]. eapply oks_mono.
  - eapply ArrayManipProofs.erase_ok with (p := pw) (xs := map fw f1) (ds := [fw e]) (ys := map fw g1) (s := sw); [|reflexivity|len|reflexivity|len].
    eapply mem_cast; [exact M|]. same_cells.
  - intros b' M'. exists (LWs (map fw (f1 ++ g1)) ++ [LN]). split.
    + apply Forall2_app; [apply some_f2|exact (none_f2 1)].
    + eapply mem_cast; [exact M'|]. same_cells.
Qed.
Lemma ev_removeN A es C B pc s x nnz f1 e g2 g3 n :
  rx live A es C B pc s (map Some f1 ++ gaps P n ++ map Some (e :: g2 ++ g3)) x ->
  oks (crs_ev chk tw nnz [] (ERemoveN (S n) (length f1 + n) (length f1 + n + 1 + length g2)) x)
      (rx live A es C B pc s (map Some (f1 ++ g2) ++ gaps P (S n) ++ map Some g3)).
Proof.
  intros R. eapply crs_ev_ok; [exact R|unfold gaps; len|]. intros pw le sw b F M.
  apply Forall2_app_inv_l in F. destruct F as (l1 & l2 & F1 & F2 & ->). apply f2_some in F1. subst l1.
  apply Forall2_app_inv_l in F2. destruct F2 as (l3 & l4 & F2 & F3 & ->). apply f2_some in F3. subst l4.
  apply ent_none in F2. destruct F2 as [Lv Ln].
  cbn [entry_event]. eapply oks_mono.
  - eapply ArrayManipProofs.shiftDown_ok with (p := pw ++ LWs (map fw f1)) (ds := l3 ++ [LV (fw e)]) (ys := map fw g2) (s := LWs (map fw g3) ++ sw).
    + eapply mem_cast; [exact M|]. same_cells.
    + apply Forall_app. split; auto. constructor; auto. discriminate.
    + len.
    + len.
    + len.
    + len.
  - intros b' (ws & Lw & Lvw & M'). exists (LWs (map fw (f1 ++ g2)) ++ ws ++ LWs (map fw g3)). split.
    + apply Forall2_app; [apply some_f2|]. apply Forall2_app; [|apply some_f2].
      apply live_f2; auto.
    + eapply mem_cast; [exact M'|]. same_cells.
Qed.
End CRS.
