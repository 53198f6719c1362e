(** emplaceBackAtomic under every schedule. *)
From Coq Require Import List Arith Lia Bool Permutation.
From Verif Require Import Base BaseProofs Mem MemProofs ArrayManipProofs BufferManip BufferManipProofs
  AoA AoALayout AoAProofs AoAProofs4 SetsProofs Conc Atomic.
From Verif Require ArrayManip IndexingProofs3.
Import ListNotations.
Set Implicit Arguments.
Unset Strict Implicit.

Lemma nth_mid {X} (A : list X) x B : nth_error (A ++ x :: B) (length A) = Some x.
Proof. rewrite nth_error_app2, Nat.sub_diag by lia. reflexivity. Qed.
Lemma nth_other {X} (A : list X) x y B i : i <> length A -> nth_error (A ++ x :: B) i = nth_error (A ++ y :: B) i.
Proof.
  intros N. destruct (Nat.lt_ge_cases i (length A)).
  - rewrite !nth_error_app1 by auto. reflexivity.
  - rewrite !nth_error_app2 by auto. destruct (i - length A) eqn:E; [lia|]. reflexivity.
Qed.
Lemma upd_mid {X} (A : list X) x y B : upd (A ++ x :: B) (length A) y = A ++ y :: B.
Proof. induction A; simpl; auto. f_equal. auto. Qed.

Section Atomic.
Variables V W : Type.
Variables chk tv : bool.
Notation aoa := (aoa V W).
(** Slots: the value meant for it, and whether it is there yet. *)
Notation slot := (V * bool)%type.
Notation grow := (list slot * nat)%type.
Notation iok := (@iok slot V W).
Notation athread := (place_in V * list (nat * V))%type.
Implicit Types a : aoa.
Implicit Types T : list athread.
Implicit Types A B G : list grow.

Definition scell (s : slot) : lcell V := if snd s then LV (fst s) else LN.
Definition gcells (x : grow) : list (lcell V) := map scell (fst x) ++ repeat LN (snd x).
Definition gflat G : list (lcell V) := flat_map gcells G.
Lemma gflat_len G : length (gflat G) = total G.
Proof.
  induction G as [|[s k] G IH]; simpl; auto. rewrite app_length. rewrite IH.
  unfold gcells, wid. simpl. rewrite app_length, map_length, repeat_length. reflexivity.
Qed.

Lemma gflat_mid A x B : gflat (A ++ x :: B) = gflat A ++ gcells x ++ gflat B.
Proof. unfold gflat. rewrite flat_map_app. reflexivity. Qed.

(** What a thread has reserved, and its values for array [i] still without a slot. *)
Definition res1 (t : athread) : list (nat * nat) := match fst t with HasSlot i _ _ k => [(i, k)] | _ => [] end.
Definition mine (i : nat) (q : list (nat * V)) : list V := map snd (filter (fun c => fst c =? i) q).
Definition wait1 (i : nat) (t : athread) : list V :=
  match fst t with HasPtr j v _ => if j =? i then v :: mine i (snd t) else mine i (snd t) | _ => mine i (snd t) end.
Definition reserved ths : list (nat * nat) := flat_map res1 ths.
Definition waiting i ths : list V := flat_map (wait1 i) ths.

Section Inv.
Variable M : list (list V).
Variable K : list nat.
Variable calls : list (list (nat * V)).
Definition done (r : list V) : list slot := map (fun v => (v, true)) r.
Definition row_inv i (x : grow) ths : Prop := exists r ext, nth_error M i = Some r /\ fst x = done r ++ ext /\ nth_error K i = Some (wid x) /\
  Permutation (map fst ext ++ waiting i ths) (flat_map (mine i) calls).
Definition thread_inv G (t : athread) : Prop :=
  Forall (fun c => fst c < length G) (snd t) /\
  match fst t with
  | Outside => True
  | HasPtr i v o => i < length G /\ o = total (firstn i G)
  | HasSlot i v o k => o = total (firstn i G) /\ exists x, nth_error G i = Some x /\ nth_error (fst x) k = Some (v, false)
  end.
Definition inv a (ths : list athread) : Prop := exists G, iok a G /\ (exists q, mem tv (vals a) (gflat G ++ repeat LN q)) /\
  length G = length M /\ (forall i x, nth_error G i = Some x -> row_inv i x ths) /\
  NoDup (reserved ths) /\
  (forall i k, In (i, k) (reserved ths) <-> exists x v, nth_error G i = Some x /\ nth_error (fst x) k = Some (v, false)) /\
  Forall (thread_inv G) ths.
(** There is room for every call. *)
Hypothesis room : forall i r k, nth_error M i = Some r -> nth_error K i = Some k -> length r + length (flat_map (mine i) calls) <= k.

Lemma row_room i x ths : row_inv i x ths -> length (waiting i ths) <= snd x.
Proof.
  intros (r & ext & Nr & E & Nk & Pm). apply Permutation_length in Pm. rewrite app_length, map_length in Pm.
  pose proof (room Nr Nk) as H. unfold wid in H. rewrite E, app_length in H. unfold done in H. rewrite map_length in H. lia.
Qed.
Lemma thread_other G G' t : length G = length G' -> (forall i, total (firstn i G) = total (firstn i G')) ->
  (forall i x k v, fst t = HasSlot i v (total (firstn i G)) k -> nth_error G i = Some x -> nth_error (fst x) k = Some (v, false) ->
     exists x', nth_error G' i = Some x' /\ nth_error (fst x') k = Some (v, false)) ->
  thread_inv G t -> thread_inv G' t.
Proof.
  intros El Et Hs [Fq H]. split; [rewrite <- El; exact Fq|]. destruct (fst t) as [|i v o|i v o k]; auto.
  - rewrite <- El, <- Et. exact H.
  - destruct H as [-> (x & N & E)]. split; [apply Et|]. eapply Hs; eauto.
Qed.
Lemma total_firstn_put A x y B i : wid x = wid y -> total (firstn i (A ++ x :: B)) = total (firstn i (A ++ y :: B)).
Proof.
  intros E. rewrite !firstn_app, !total_app. f_equal. destruct (i - length A); simpl; auto.
Qed.

(** ** The three steps *)
Lemma call_step a T1 i v q T2 : inv a (T1 ++ (Outside, (i, v) :: q) :: T2) ->
  oks (emplace_step chk tv a (Outside, (i, v) :: q)) (fun r => inv (fst r) (T1 ++ snd r :: T2)).
Proof.
  intros (G & I & Mm & El & Ri & Nd & Rs & Ft). cbn [emplace_step].
  pose proof (proj1 (Forall_forall _ _) Ft (Outside, (i, v) :: q)) as Ti. rewrite in_app_iff in Ti. specialize (Ti (or_intror (or_introl eq_refl))).
  destruct Ti as [Fq _]. cbn [snd] in Fq. inversion Fq as [|c q' Li Fq']; subst. cbn [fst] in Li.
  rewrite (check_array_at chk I Li). cbn [bind]. rewrite (offset_at I) by lia. cbn [bind]. apply oks_ok. cbn [fst snd].
  assert (Er : reserved (T1 ++ (HasPtr i v (total (firstn i G)), q) :: T2) = reserved (T1 ++ (Outside, (i, v) :: q) :: T2))
    by (unfold reserved; rewrite !flat_map_app; reflexivity).
  exists G. rewrite Er. split; [exact I|]. split; [exact Mm|]. split; [exact El|]. split; [|split; [exact Nd|split; [exact Rs|]]].
  - intros j x N. destruct (Ri j x N) as (r & ext & H1 & H2 & H3 & H4). exists r, ext. split; [exact H1|]. split; [exact H2|]. split; [exact H3|].
    replace (waiting j (T1 ++ (HasPtr i v (total (firstn i G)), q) :: T2)) with (waiting j (T1 ++ (Outside, (i, v) :: q) :: T2)); [exact H4|].
    unfold waiting. rewrite !flat_map_app. simpl. f_equal. f_equal. unfold wait1, mine. cbn [fst snd filter]. destruct (i =? j); reflexivity.
  - apply Forall_app in Ft. destruct Ft as [F1 F2]. inversion F2; subst. apply Forall_app. split; [exact F1|]. constructor; [|assumption].
    split; [exact Fq'|]. cbn [fst]. auto.
Qed.

Lemma inc_step a T1 i v o q T2 : inv a (T1 ++ (HasPtr i v o, q) :: T2) ->
  oks (emplace_step chk tv a (HasPtr i v o, q)) (fun r => inv (fst r) (T1 ++ snd r :: T2)).
Proof.
  intros (G & I & [qq Mm] & El & Ri & Nd & Rs & Ft). cbn [emplace_step].
  pose proof (proj1 (Forall_forall _ _) Ft (HasPtr i v o, q)) as Ti. rewrite in_app_iff in Ti. specialize (Ti (or_intror (or_introl eq_refl))).
  destruct Ti as [Fq [Li Eo]]. cbn [fst snd] in *.
  destruct (nth_error G i) as [x|] eqn:Nx; [|apply nth_error_None in Nx; lia]. pose proof (Ri i x Nx) as Rx. pose proof (row_room Rx) as Rm.
  rewrite (size_at I Nx). cbn [bind].
  apply nth_error_split in Nx. destruct Nx as (A & B & -> & <-). destruct x as [sl k]. cbn [fst snd] in *.
  assert (Wl : length (waiting (length A) (T1 ++ (HasPtr (length A) v o, q) :: T2)) > 0).
  { unfold waiting. rewrite flat_map_app, app_length. cbn [flat_map]. rewrite app_length. unfold wait1 at 2. cbn [fst snd]. rewrite Nat.eqb_refl. simpl. lia. }
  destruct k as [|k]; [lia|].
  assert (Ew : wid (sl, S k) = wid (sl ++ [(v, false)], k)) by (unfold wid; cbn [fst snd]; rewrite app_length; simpl; lia).
  eapply oks_bind; [eapply size_put with (r' := sl ++ [(v, false)]) (k' := k); [exact I| |]; rewrite ?app_length; simpl; lia|].
  intros a' (I' & Ev & Ee). apply oks_ok. cbn [fst snd].
  set (G := A ++ (sl, S k) :: B) in *. set (G' := A ++ (sl ++ [(v, false)], k) :: B) in *.
  assert (Tot : forall j, total (firstn j G) = total (firstn j G')) by (intros j; apply total_firstn_put; exact Ew).
  assert (Er : forall z, In z (reserved (T1 ++ (HasSlot (length A) v o (length sl), q) :: T2)) <-> z = (length A, length sl) \/ In z (reserved (T1 ++ (HasPtr (length A) v o, q) :: T2))).
  { intros z. unfold reserved. rewrite !flat_map_app. cbn [flat_map res1 fst]. rewrite !in_app_iff. simpl. intuition. }
  assert (Fresh : ~ In (length A, length sl) (reserved (T1 ++ (HasPtr (length A) v o, q) :: T2))).
  { intros H. apply Rs in H. destruct H as (x & u & N & E). unfold G in N. rewrite nth_mid in N. injection N as <-. cbn [fst] in E.
    assert (length sl < length sl) by (apply nth_error_Some; rewrite E; discriminate). lia. }
  exists G'. split; [exact I'|]. split; [|split; [|split; [|split; [|split]]]].
  - exists qq. rewrite Ev. eapply mem_cast; [exact Mm|]. unfold G, G'. rewrite !gflat_mid. unfold gcells. cbn [fst snd].
    rewrite map_app. simpl. rewrite <- !app_assoc. reflexivity.
  - unfold G, G' in *. rewrite app_length in *. simpl in *. lia.
  - intros j x N. destruct (Nat.eq_dec j (length A)) as [->|Ne].
    + unfold G' in N. rewrite nth_mid in N. injection N as <-. destruct Rx as (r & ext & H1 & H2 & H3 & H4).
      exists r, (ext ++ [(v, false)]). split; [exact H1|]. cbn [fst snd] in *. split; [rewrite H2, app_assoc; reflexivity|]. split; [rewrite H3; f_equal; exact Ew|].
      etransitivity; [|exact H4]. rewrite map_app, <- app_assoc. apply Permutation_app_head. cbn [map fst].
      unfold waiting. rewrite !flat_map_app. cbn [flat_map]. unfold wait1 at 2 5. cbn [fst snd]. rewrite Nat.eqb_refl.
      simpl. apply Permutation_middle.
    + assert (N' : nth_error G j = Some x) by (rewrite <- N; unfold G, G'; apply nth_other; auto).
      destruct (Ri j x N') as (r & ext & H1 & H2 & H3 & H4). exists r, ext. split; [exact H1|]. split; [exact H2|]. split; [exact H3|].
      replace (waiting j (T1 ++ (HasSlot (length A) v o (length sl), q) :: T2)) with (waiting j (T1 ++ (HasPtr (length A) v o, q) :: T2)); [exact H4|].
      unfold waiting. rewrite !flat_map_app. simpl. f_equal. f_equal. unfold wait1. cbn [fst snd].
      destruct (Nat.eqb_spec (length A) j); [congruence|reflexivity].
  - unfold reserved in *. rewrite !flat_map_app in *. cbn [flat_map] in *. change (res1 (HasSlot (length A) v o (length sl), q)) with [(length A, length sl)].
    change (res1 (HasPtr (length A) v o, q)) with (@nil (nat * nat)) in *. cbn [app] in *.
    apply (Permutation_NoDup (Permutation_middle _ _ _)). constructor; [exact Fresh|exact Nd].
  - intros j c. rewrite Er. split.
    + intros [E|H].
      * injection E as -> ->. eexists. exists v. unfold G'. rewrite nth_mid. split; [reflexivity|]. cbn [fst]. apply nth_mid.
      * apply Rs in H. destruct H as (x & u & N & E). destruct (Nat.eq_dec j (length A)) as [->|Ne].
        -- unfold G in N. rewrite nth_mid in N. injection N as <-. cbn [fst] in E. eexists. exists u. unfold G'. rewrite nth_mid. split; [reflexivity|].
           cbn [fst]. rewrite nth_error_app1 by (apply nth_error_Some; rewrite E; discriminate). exact E.
        -- exists x, u. split; [|exact E]. rewrite <- N. symmetry. unfold G, G'. apply nth_other; auto.
    + intros (x & u & N & E). destruct (Nat.eq_dec j (length A)) as [->|Ne].
      * unfold G' in N. rewrite nth_mid in N. injection N as <-. cbn [fst] in E.
        destruct (Nat.lt_trichotomy c (length sl)) as [Lt|[->|Gt]].
        -- right. apply Rs. rewrite nth_error_app1 in E by auto. exists (sl, S k), u. unfold G. rewrite nth_mid. auto.
        -- left. reflexivity.
        -- rewrite nth_error_app2 in E by lia. destruct (c - length sl) as [|[|z]] eqn:Ez; [lia| |]; discriminate E.
      * right. apply Rs. exists x, u. split; [|exact E]. rewrite <- N. unfold G, G'. apply nth_other; auto.
  - apply Forall_app in Ft. destruct Ft as [F1 F2]. inversion F2; subst.
    assert (Oth : forall t, thread_inv G t -> thread_inv G' t).
    { intros t. apply thread_other; [unfold G, G'; rewrite !app_length; reflexivity|exact Tot|].
      intros j x c u _ N E. destruct (Nat.eq_dec j (length A)) as [->|Ne].
      - unfold G in N. rewrite nth_mid in N. injection N as <-. cbn [fst] in E. eexists. unfold G'. rewrite nth_mid. split; [reflexivity|].
        cbn [fst]. rewrite nth_error_app1 by (apply nth_error_Some; rewrite E; discriminate). exact E.
      - exists x. split; [|exact E]. rewrite <- N. symmetry. unfold G, G'. apply nth_other; auto. }
    apply Forall_app. split; [eapply Forall_impl; [exact Oth|exact F1]|]. constructor; [|eapply Forall_impl; [exact Oth|assumption]].
    split; cbn [fst snd].
    + replace (length G') with (length G) by (unfold G, G'; rewrite !app_length; reflexivity). exact Fq.
    + split; [apply Tot|]. eexists. unfold G'. rewrite nth_mid. split; [reflexivity|]. cbn [fst]. apply nth_mid.
Qed.

Lemma new_step a T1 i v o k q T2 : inv a (T1 ++ (HasSlot i v o k, q) :: T2) ->
  oks (emplace_step chk tv a (HasSlot i v o k, q)) (fun r => inv (fst r) (T1 ++ snd r :: T2)).
Proof.
  intros (G & I & [qq Mm] & El & Ri & Nd & Rs & Ft). cbn [emplace_step].
  pose proof (proj1 (Forall_forall _ _) Ft (HasSlot i v o k, q)) as Ti. rewrite in_app_iff in Ti. specialize (Ti (or_intror (or_introl eq_refl))).
  destruct Ti as [Fq [Eo (x & Nx & Ex)]]. cbn [fst snd] in *. subst o. pose proof (Ri i x Nx) as Rx.
  apply nth_error_split in Nx. destruct Nx as (A & B & -> & <-). destruct x as [sl c]. cbn [fst snd] in *.
  pose proof Ex as Ex0. apply nth_error_split in Ex. destruct Ex as (s1 & s2 & -> & <-).
  replace (firstn (length A) (A ++ (s1 ++ (v, false) :: s2, c) :: B)) with A in * by (rewrite firstn_app, Nat.sub_diag, firstn_all, app_nil_r; reflexivity).
  assert (Ck : (if chk then c0 <- capacityOfArray chk a (length A) ;; error_if (c0 <? length s1 + 1) else Ok tt) = Ok tt).
  { destruct chk eqn:C; auto. rewrite <- C. rewrite (row_capacity chk I). cbn [bind]. rewrite app_length. simpl.
    apply error_if_ok. apply Nat.ltb_ge. lia. }
  rewrite Ck. cbn [bind]. unfold ArrayManip.emplaceBack.
  set (G := A ++ (s1 ++ (v, false) :: s2, c) :: B) in *. set (G' := A ++ (s1 ++ (v, true) :: s2, c) :: B).
  assert (Ew : wid (s1 ++ (v, false) :: s2, c) = wid (s1 ++ (v, true) :: s2, c)) by (unfold wid; cbn [fst snd]; rewrite !app_length; reflexivity).
  assert (Sk : offsets 0 G = offsets 0 G' /\ sizes G = sizes G').
  { unfold G, G'. rewrite !offsets_app, !sizes_app. simpl. rewrite Ew. unfold sizes. simpl. rewrite !app_length. auto. }
  eapply oks_bind.
  - eapply construct_ok with (p := gflat A ++ map scell s1) (c := LN) (s := map scell s2 ++ repeat LN c ++ gflat B ++ repeat LN qq).
    + eapply mem_cast; [exact Mm|]. unfold G. rewrite gflat_mid. unfold gcells. cbn [fst snd]. rewrite map_app. simpl.
      rewrite <- !app_assoc. reflexivity.
    + rewrite app_length, gflat_len, map_length. reflexivity.
    + exact Logic.I.
  - intros b Mb. apply oks_ok. cbn [fst snd].
    assert (Tot : forall j, total (firstn j G) = total (firstn j G')) by (intros j; apply total_firstn_put; exact Ew).
    assert (Pm : Permutation (reserved (T1 ++ (HasSlot (length A) v (total A) (length s1), q) :: T2)) ((length A, length s1) :: reserved (T1 ++ (Outside, q) :: T2))).
    { unfold reserved. rewrite !flat_map_app. cbn [flat_map]. change (res1 (HasSlot (length A) v (total A) (length s1), q)) with [(length A, length s1)].
      change (res1 (Outside, q)) with (@nil (nat * nat)). cbn [app]. symmetry. apply Permutation_middle. }
    pose proof (Permutation_NoDup Pm Nd) as Nd'. inversion Nd' as [|z l Nin Nd2]; subst.
    exists G'. split; [|split; [|split; [|split; [|split; [|split]]]]].
    + destruct I as (N & O & Sz), Sk as [So Ss]. split; [|split]; cbn.
      * rewrite N. unfold G, G'. rewrite !app_length. reflexivity.
      * rewrite <- So. exact O.
      * rewrite <- Ss. exact Sz.
    + exists qq. cbn [vals set_vals]. eapply mem_cast; [exact Mb|]. unfold G'. rewrite gflat_mid. unfold gcells. cbn [fst snd]. rewrite map_app. simpl.
      rewrite <- !app_assoc. reflexivity.
    + rewrite <- El. unfold G, G'. rewrite !app_length. reflexivity.
    + assert (Wt : forall j, waiting j (T1 ++ (Outside, q) :: T2) = waiting j (T1 ++ (HasSlot (length A) v (total A) (length s1), q) :: T2))
        by (intros j; unfold waiting; rewrite !flat_map_app; reflexivity).
      intros j x N. destruct (Nat.eq_dec j (length A)) as [->|Ne].
      * unfold G' in N. rewrite nth_mid in N. injection N as <-. destruct Rx as (r & ext & H1 & H2 & H3 & H4). cbn [fst snd] in *.
        assert (Lr : length r <= length s1).
        { destruct (Nat.le_gt_cases (length r) (length s1)) as [|Gt]; auto. exfalso.
          rewrite H2, nth_error_app1 in Ex0 by (unfold done; rewrite map_length; auto). unfold done in Ex0. rewrite nth_error_map in Ex0.
          destruct (nth_error r (length s1)); discriminate. }
        assert (E1 : s1 = done r ++ skipn (length r) s1).
        { rewrite <- (firstn_skipn (length r) s1) at 1. f_equal. apply (f_equal (firstn (length r))) in H2.
          rewrite firstn_app in H2. replace (length r - length s1) with 0 in H2 by lia. rewrite firstn_O, app_nil_r in H2. rewrite H2.
          rewrite firstn_app. unfold done. rewrite map_length, Nat.sub_diag, firstn_O, app_nil_r. apply firstn_all2. rewrite map_length. lia. }
        exists r, (skipn (length r) s1 ++ (v, true) :: s2). split; [exact H1|]. split; [rewrite E1 at 1; rewrite <- app_assoc; reflexivity|].
        split; [rewrite H3; f_equal; exact Ew|].
        assert (E2 : ext = skipn (length r) s1 ++ (v, false) :: s2).
        { rewrite E1 in H2 at 1. rewrite <- app_assoc in H2. apply app_inv_head in H2. auto. }
        rewrite E2 in H4. rewrite Wt, !map_app in *. exact H4.
      * assert (N' : nth_error G j = Some x) by (rewrite <- N; unfold G, G'; apply nth_other; auto).
        destruct (Ri j x N') as (r & ext & H1 & H2 & H3 & H4). exists r, ext. rewrite Wt. auto.
    + exact Nd2.
    + intros j z. assert (E : In (j, z) (reserved (T1 ++ (Outside, q) :: T2)) <-> In (j, z) (reserved (T1 ++ (HasSlot (length A) v (total A) (length s1), q) :: T2)) /\ (j, z) <> (length A, length s1)).
      { split.
        - intros H. split; [eapply Permutation_in; [symmetry; exact Pm|]; right; exact H|]. intros E. rewrite E in H. contradiction.
        - intros [H Ne]. eapply Permutation_in in H; [|exact Pm]. destruct H as [H|H]; [congruence|exact H]. }
      rewrite E, Rs. clear E. split.
      * intros [(x & u & N & Eu) Ne]. destruct (Nat.eq_dec j (length A)) as [->|Nj].
        -- unfold G in N. rewrite nth_mid in N. injection N as <-. cbn [fst] in Eu. assert (z <> length s1) by congruence.
           eexists. exists u. unfold G'. rewrite nth_mid. split; [reflexivity|]. cbn [fst]. rewrite <- Eu. apply nth_other; auto.
        -- exists x, u. split; [|exact Eu]. rewrite <- N. unfold G, G'. apply nth_other; auto.
      * intros (x & u & N & Eu). destruct (Nat.eq_dec j (length A)) as [->|Nj].
        -- unfold G' in N. rewrite nth_mid in N. injection N as <-. cbn [fst] in Eu.
           assert (z <> length s1) by (intros ->; rewrite nth_mid in Eu; discriminate). split; [|congruence].
           eexists. exists u. unfold G. rewrite nth_mid. split; [reflexivity|]. cbn [fst]. rewrite <- Eu. apply nth_other; auto.
        -- split; [|congruence]. exists x, u. split; [|exact Eu]. rewrite <- N. unfold G, G'. apply nth_other; auto.
    + apply Forall_app in Ft. destruct Ft as [F1 F2]. inversion F2; subst.
      assert (Oth : forall t, (forall u w, fst t <> HasSlot (length A) u w (length s1)) -> thread_inv G t -> thread_inv G' t).
      { intros t Nt. apply thread_other; [unfold G, G'; rewrite !app_length; reflexivity|exact Tot|].
        intros j x z u Et N E. destruct (Nat.eq_dec j (length A)) as [->|Ne].
        - unfold G in N. rewrite nth_mid in N. injection N as <-. cbn [fst] in E. assert (z <> length s1) by (intros ->; eapply Nt; exact Et).
          eexists. unfold G'. rewrite nth_mid. split; [reflexivity|]. cbn [fst]. rewrite <- E. apply nth_other; auto.
        - exists x. split; [|exact E]. rewrite <- N. unfold G, G'. apply nth_other; auto. }
      assert (Out : forall t, In t T1 \/ In t T2 -> forall u w, fst t <> HasSlot (length A) u w (length s1)).
      { intros t Ht u w Et. apply Nin. unfold reserved. rewrite flat_map_app. apply in_app_iff. cbn [flat_map].
        assert (Ir : In (length A, length s1) (res1 t)) by (unfold res1; rewrite Et; left; reflexivity).
        destruct Ht as [Ht|Ht]; [left|right; apply in_app_iff; right]; apply in_flat_map; exists t; auto. }
      apply Forall_app. split; [|constructor].
      * rewrite Forall_forall in F1 |- *. intros t Ht. apply Oth; auto.
      * split; cbn [fst snd]; auto. replace (length G') with (length G) by (unfold G, G'; rewrite !app_length; reflexivity). exact Fq.
      * match goal with H : Forall (thread_inv G) T2 |- _ => rewrite Forall_forall in H |- *; intros t Ht; apply Oth; auto end.
Qed.

Lemma any_step a T1 t T2 : inv a (T1 ++ t :: T2) -> oks (emplace_step chk tv a t) (fun r => inv (fst r) (T1 ++ snd r :: T2)).
Proof.
  intros H. destruct t as [[|i v o|i v o k] q].
  - destruct q as [|[i v] q]; [apply oks_ok; exact H|apply call_step; exact H].
  - apply inc_step. exact H.
  - apply new_step. exact H.
Qed.
Lemma exec_inv sched : forall a ths, inv a ths -> oks (exec (emplace_step chk tv) sched a ths) (fun r => inv (fst r) (snd r)).
Proof.
  induction sched as [|t sched IH]; intros a ths H; cbn [exec]; [apply oks_ok; exact H|].
  destruct (nth_error ths t) as [th|] eqn:N; [|apply IH; exact H]. apply nth_error_split in N. destruct N as (T1 & T2 & -> & <-).
  eapply oks_bind; [apply any_step; exact H|]. intros [a' th'] H'. rewrite upd_mid. apply IH. exact H'.
Qed.
End Inv.

(** ** Start and end *)
Variable w0 : W.
Variable tw : bool.
Notation idv := (fun v : V => v).
Notation fw := (fun _ : V => w0).
Notation arep := (@arep V W tv tw fw).
Definition gone (x : list V * nat) : grow := (done (fst x), snd x).
Lemma gone_wid x : wid (gone x) = wid x. Proof. unfold wid, gone, done. simpl. rewrite map_length. reflexivity. Qed.
Lemma gone_total L : total (map gone L) = total L.
Proof. induction L; simpl; auto. rewrite gone_wid. auto. Qed.
Lemma gone_offsets L n : offsets n (map gone L) = offsets n L.
Proof. revert n. induction L; intros n; simpl; auto. rewrite gone_wid, IHL. reflexivity. Qed.
Lemma gone_sizes L : sizes (map gone L) = sizes L.
Proof. unfold sizes. rewrite map_map. apply map_ext. intros [r k]. unfold gone, done. simpl. apply map_length. Qed.
Lemma gone_flat L : gflat (map gone L) = flat idv L.
Proof.
  induction L as [|[r k] L IH]; simpl; auto. rewrite IH. unfold gcells, cells, gone, done. cbn [fst snd].
  rewrite !map_map. reflexivity.
Qed.
Lemma start_inv a M K calls : arep a M K -> Forall (Forall (fun c => fst c < length M)) calls -> inv M K calls a (start calls).
Proof.
  intros (L & [(N & O & Sz) [[q Lv] _]] & <- & <-) Fc. rewrite map_length in Fc.
  assert (Er : forall c : list (list (nat * V)), reserved (start c) = []) by (intros c; unfold reserved, start; induction c; simpl; auto).
  exists (map gone L). split; [|split; [|split; [|split; [|split; [|split]]]]].
  - split; [|split]; [rewrite map_length; exact N|rewrite gone_offsets; exact O|rewrite gone_sizes; exact Sz].
  - exists q. rewrite gone_flat. exact Lv.
  - rewrite !map_length. reflexivity.
  - intros i x Nx. rewrite nth_error_map in Nx. destruct (nth_error L i) as [y|] eqn:Ny; [|discriminate]. cbn in Nx. injection Nx as <-.
    exists (fst y), []. rewrite !nth_error_map, Ny. split; [reflexivity|]. split; [rewrite app_nil_r; reflexivity|]. split; [rewrite gone_wid; reflexivity|].
    simpl. unfold waiting, start. rewrite flat_map_concat_map, map_map, <- flat_map_concat_map. apply Permutation_refl.
  - rewrite Er. constructor.
  - intros i k. rewrite Er. split; [intros []|]. intros (x & v & Nx & E). rewrite nth_error_map in Nx.
    destruct (nth_error L i) as [y|]; [|discriminate]. injection Nx as <-. unfold gone, done in E. cbn [fst] in E. rewrite nth_error_map in E.
    destruct (nth_error (fst y) k); discriminate.
  - unfold start. rewrite Forall_map. eapply Forall_impl; [|exact Fc]. intros c H. split; [rewrite map_length; exact H|exact Logic.I].
Qed.
Lemma fin_inv a M K calls ths : length M = length K -> inv M K calls a ths -> finished ths ->
  exists M', arep a M' K /\ length M' = length M /\
    forall i r, nth_error M i = Some r -> exists new, nth_error M' i = Some (r ++ new) /\ Permutation new (flat_map (mine i) calls).
Proof.
  intros ElK (G & (N & O & Sz) & [q Mm] & El & Ri & Nd & Rs & Ft) Fn.
  assert (Nr : reserved ths = [] /\ forall i, waiting i ths = []).
  { clear -Fn. unfold reserved, waiting. induction Fn as [|t ths E F [IH1 IH2]]; simpl; auto. subst t. auto. }
  destruct Nr as [Nr Nw].
  assert (Full : forall i x k s, nth_error G i = Some x -> nth_error (fst x) k = Some s -> snd s = true).
  { intros i x k [u [|]] Nx Nk; auto. exfalso. assert (H : In (i, k) (reserved ths)) by (apply Rs; exists x, u; auto). rewrite Nr in H. exact H. }
  set (L := map (fun x : grow => (map fst (fst x), snd x)) G).
  assert (EG : map gone L = G).
  { unfold L. rewrite map_map. rewrite <- (map_id G) at 2. apply map_ext_in. intros [sl k] Hx. apply In_nth_error in Hx. destruct Hx as [i Hx].
    unfold gone, done. cbn [fst snd]. f_equal. rewrite map_map. rewrite <- (map_id sl) at 2. apply map_ext_in. intros [u t] Hs.
    apply In_nth_error in Hs. destruct Hs as [j Hs]. cbn [fst]. f_equal. symmetry. apply (Full i _ j _ Hx Hs). }
  exists (map fst L). split; [|split].
  - exists L. split; [|split; [reflexivity|]].
    + split; [|split; [|]].
      * rewrite <- EG in N, O, Sz. rewrite map_length in N. rewrite gone_offsets in O. rewrite gone_sizes in Sz. split; [exact N|split; [exact O|exact Sz]].
      * exists q. rewrite <- EG, gone_flat in Mm. exact Mm.
      * discriminate.
    + apply IndexingProofs3.nth_ext_err. intros i. rewrite nth_error_map. unfold L. rewrite nth_error_map. destruct (nth_error G i) as [x|] eqn:Nx.
      * destruct (Ri i x Nx) as (r & ext & H1 & H2 & H3 & H4). cbn. rewrite H3. f_equal. unfold wid. cbn [fst snd]. rewrite map_length. reflexivity.
      * cbn. symmetry. apply nth_error_None. apply nth_error_None in Nx. lia.
  - unfold L. rewrite !map_length. exact El.
  - intros i r Nm. destruct (nth_error G i) as [x|] eqn:Nx.
    + destruct (Ri i x Nx) as (r' & ext & H1 & H2 & H3 & H4). assert (r' = r) by congruence. subst r'.
      exists (map fst ext). rewrite Nw, app_nil_r in H4. split; [|exact H4].
      unfold L. rewrite !nth_error_map, Nx. cbn. rewrite H2, map_app. unfold done. rewrite map_map, map_id. reflexivity.
    + exfalso. apply nth_error_None in Nx. assert (i < length M) by (apply nth_error_Some; congruence). lia.
Qed.
(** At any time the elements which were there before are there. *)
Lemma inv_rows a M K calls ths i r j v : inv M K calls a ths -> nth_error M i = Some r -> nth_error r j = Some v ->
  aoa_at chk a i j = Ok v.
Proof.
  intros (G & I & [q Mm] & El & Ri & _) Nm Nv. destruct (nth_error G i) as [x|] eqn:Nx; [|apply nth_error_None in Nx; assert (i < length M) by (apply nth_error_Some; congruence); lia].
  destruct (Ri i x Nx) as (r' & ext & H1 & H2 & H3 & H4). assert (r' = r) by congruence. subst r'.
  assert (Li : i < length G) by (apply nth_error_Some; congruence). assert (Lj : j < length r) by (apply nth_error_Some; congruence).
  unfold aoa_at, AoA.slot, check_array2. rewrite (size_at I Nx), (offset_at I) by lia.
  destruct I as (N & _). replace (numArrays a <=? i) with false by (symmetry; apply Nat.leb_gt; lia).
  assert (Es : (length (fst x) <=? j) = false) by (apply Nat.leb_gt; rewrite H2, app_length; unfold done; rewrite map_length; lia).
  destruct chk; cbn [error_if bind]; rewrite ?Es; cbn [error_if bind]; clear Es;
  (apply nth_error_split in Nx; destruct Nx as (A & B & -> & <-); destruct x as [sl k]; cbn [fst snd] in *; subst sl;
  rewrite firstn_app, Nat.sub_diag, firstn_all, app_nil_r; apply nth_error_split in Nv; destruct Nv as (r1 & r2 & -> & <-);
  eapply rd_ok with (p := gflat A ++ map (@LV V) r1) (s := map (@LV V) r2 ++ map scell ext ++ repeat LN k ++ gflat B ++ repeat LN q);
  [eapply mem_cast; [exact Mm|]; rewrite gflat_mid; unfold gcells, done; cbn [fst snd]; rewrite !map_app, !map_map; simpl; rewrite <- !app_assoc; reflexivity
  |rewrite app_length, gflat_len, map_length; reflexivity]).
Qed.
End Atomic.

(** Every thread which is scheduled often enough finishes. *)
Definition todo {V} (t : place_in V * list (nat * V)) : nat :=
  (match fst t with Outside => 0 | HasPtr _ _ _ => 2 | HasSlot _ _ _ _ => 1 end) + 3 * length (snd t).
Lemma todo_step V W chk tv (a a' : aoa V W) t t' : emplace_step chk tv a t = Ok (a', t') -> todo t' = todo t - 1.
Proof.
  destruct t as [[|i v o|i v o k] q]; cbn [emplace_step]; unfold todo.
  - destruct q as [|[i v] q].
    + intros E. injection E as <- <-. reflexivity.
    + destruct (check_array chk a i); try discriminate. cbn [bind]. destruct (offset a i); try discriminate. cbn [bind].
      intros E. injection E as <- <-. cbn. lia.
  - destruct (size_ a i) as [s| |]; try discriminate. cbn [bind]. destruct (put_size a i (s + 1)); try discriminate. cbn [bind].
    intros E. injection E as <- <-. cbn. lia.
  - set (c := if chk then _ else _). destruct c; try discriminate. cbn [bind]. destruct (ArrayManip.emplaceBack tv (vals a) o k v); try discriminate. cbn [bind].
    intros E. injection E as <- <-. cbn. lia.
Qed.
Lemma exec_todo V W chk tv sched : forall (a a' : aoa V W) ths ths', exec (emplace_step chk tv) sched a ths = Ok (a', ths') ->
  length ths' = length ths /\ forall t th, nth_error ths t = Some th -> exists th', nth_error ths' t = Some th' /\ todo th' = todo th - count_occ Nat.eq_dec sched t.
Proof.
  induction sched as [|k sched IH]; intros a a' ths ths'; cbn [exec].
  - intros E. injection E as <- <-. split; auto. intros t th N. exists th. simpl. split; [exact N|lia].
  - destruct (nth_error ths k) as [x|] eqn:Nk.
    + destruct (emplace_step chk tv a x) as [[a1 x1]| |] eqn:Es; try discriminate. cbn [bind]. intros E. apply IH in E. destruct E as [El H].
      apply todo_step in Es. apply nth_error_split in Nk. destruct Nk as (T1 & T2 & -> & <-). rewrite upd_mid in *. rewrite app_length in *. simpl length in *.
      split; [lia|]. intros t th N. simpl. destruct (Nat.eq_dec (length T1) t) as [<-|Ne].
      * rewrite nth_mid in N. injection N as ->. destruct (H _ x1 (nth_mid _ _ _)) as (th' & N' & E'). exists th'. split; [exact N'|]. lia.
      * apply H. rewrite <- N. apply nth_other. auto.
    + intros E. apply IH in E. destruct E as [El H]. split; [exact El|]. intros t th N. simpl. destruct (Nat.eq_dec k t) as [->|Ne]; [congruence|]. apply H. exact N.
Qed.
