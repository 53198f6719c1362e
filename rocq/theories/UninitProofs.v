(** Proofs about arrays some of whose values are not initialised. *)
From Coq Require Import List Arith ZArith Lia Bool Permutation.
From Verif Require Import Base BaseProofs Mem MemProofs BufferManipProofs Indexing IndexingSpec IndexingProofs Array ArraySpec GridSpec GridProofs Uninit UninitSpec.
From Verif Require ArrayManip IndexingProofs2 ArrayProofs ArrayProofs2 ArrayProofs3.
Import ListNotations.
Set Implicit Arguments.
Unset Strict Implicit.

Section U.
Variable V : Type.
Variable chk : bool.
Variable perm : list nat.
Hypothesis P : is_permutation perm (length perm).
Hypothesis NZ : 0 < length perm.
Notation kind := BufferManip.BMalloc.
Definition known (c : cell V) (o : option V) : Prop := match o with Some v => c = Obj v | None => True end.
Definition pok (a : array V) (g : grid (option V)) : Prop :=
  length (a_dims a) = length perm /\ a_strides a = calculateStrides perm (a_dims a) /\ a_rix a < length perm /\
  a_dims a = g_dims g /\ a_rix a = g_rix g /\ length (g_vals g) = prod (g_dims g) /\
  exists cells rest, a_buf a = cells ++ rest /\ Forall2 known cells (g_vals g).

(** A trivially copyable T is moved bit by bit, whatever is there. *)
Lemma move_triv n : forall i (d s : buf V), i + n <= length d -> i + n <= length s ->
  exists d', for_up n (fun i ds => let '(d, s) := ds in '(c, s') <- take true s (0 + i) ;; d' <- place true d (0 + i) c ;; Ok (d', s')) i (d, s) = Ok (d', s) /\
  length d' = length d /\ forall k, nth_error d' k = if ((i <=? k) && (k <? i + n))%bool then nth_error s k else nth_error d k.
Proof.
  induction n as [|n IH]; intros i d s Hd Hs.
  - exists d. split; [reflexivity|]. split; [reflexivity|]. intros k. destruct (Nat.leb_spec i k); [|reflexivity]. destruct (Nat.ltb_spec k (i + 0)); [lia|reflexivity].
  - cbn [for_up]. rewrite !Nat.add_0_l. unfold take, place. 
    destruct (nth_error s i) as [c|] eqn:Ec; [|apply nth_error_None in Ec; lia]. destruct (nth_error d i) as [e|] eqn:Ed; [|apply nth_error_None in Ed; lia].
    unfold aget. rewrite Ec. cbn [bind]. rewrite Ed. cbn [bind].
    assert (Es : match e with Obj _ => aset d i c | _ => aset d i c end = Ok (upd d i c)).
    { unfold aset. destruct (Nat.ltb_spec i (length d)); [destruct e; reflexivity|lia]. }
    replace (match e with Obj _ => if true then aset d i c else Fault FOver | _ => aset d i c end) with (@Ok (buf V) (upd d i c)) by (rewrite <- Es; destruct e; reflexivity).
    cbn [bind]. destruct (IH (i + 1) (upd d i c) s) as (d' & E & L & N); [rewrite upd_length; lia|lia|]. exists d'. split; [exact E|]. rewrite upd_length in L. split; [exact L|].
    intros k. rewrite N. destruct (Nat.leb_spec i k) as [A|A].
    + destruct (Nat.eq_dec k i) as [->|Nk].
      * destruct (Nat.leb_spec (i + 1) i); [lia|]. destruct (Nat.ltb_spec i (i + S n)); [|lia]. cbn [andb]. rewrite Ec. apply nth_error_upd_eq. lia.
      * destruct (Nat.leb_spec (i + 1) k); [|lia]. destruct (Nat.ltb_spec k (i + 1 + n)), (Nat.ltb_spec k (i + S n)); try lia; [reflexivity|]. cbn [andb]. apply nth_error_upd_ne. auto.
    + destruct (Nat.leb_spec (i + 1) k); [lia|]. cbn [andb]. apply nth_error_upd_ne. lia.
Qed.
Lemma destroy_triv n : forall i (b : buf V), i + n <= length b -> for_up n (fun i b => destroy1 true b (0 + i)) i b = Ok b.
Proof.
  induction n as [|n IH]; intros i b H; [reflexivity|]. cbn [for_up]. rewrite Nat.add_0_l. unfold destroy1 at 1.
  destruct (nth_error b i) as [c|] eqn:Ec; [|apply nth_error_None in Ec; lia]. unfold aget. rewrite Ec. cbn [bind]. apply IH. lia.
Qed.
Lemma reserve_triv (b : buf V) size n : size <= length b ->
  exists b', BufferManip.reserve chk true kind b size n = Ok b' /\ length b' = Nat.max (length b) n /\ forall k, k < size -> nth_error b' k = nth_error b k.
Proof.
  intros H. unfold BufferManip.reserve, BufferManip.capacity. rewrite BufferManipProofs.check_ok by exact H. cbn [bind].
  destruct (Nat.ltb_spec (length b) n) as [A|A]; [|exists b; repeat split; auto; lia].
  unfold BufferManip.setCapacity. rewrite BufferManipProofs.check_ok by exact H. cbn [bind]. unfold BufferManip.reallocate, ArrayManip.uninitializedMove, ArrayManip.destroy.
  rewrite Nat.min_r by lia. destruct (@move_triv size 0 (repeat Raw n) b) as (d' & E & L & N); [rewrite repeat_length; lia|lia|].
  rewrite E. cbn [bind]. rewrite destroy_triv by lia. cbn [bind BufferManip.release orb]. exists d'. split; [reflexivity|]. rewrite repeat_length in L. split; [lia|].
  intros k Hk. rewrite N. destruct (Nat.ltb_spec k (0 + size)); [reflexivity|lia].
Qed.
Lemma gok_pok a g : gok true perm a g -> pok a (all_known g).
Proof.
  intros (A & D & R). pose proof (ArrayProofs2.arr_storage A) as (rest & E & _). destruct A as (L & S & Rx & Lv & _).
  split; [exact L|]. split; [exact S|]. split; [exact Rx|]. split; [exact D|]. split; [exact R|]. split; [cbn; rewrite map_length, Lv, D; reflexivity|]. exists (map Obj (g_vals g)), rest. split; [exact E|]. cbn. clear. induction (g_vals g); constructor; auto. reflexivity.
Qed.
Lemma pok_gok a g l : pok a g -> g_vals g = map Some l -> gok true perm a (mkG (g_dims g) (g_rix g) l).
Proof.
  intros (L & S & Rx & D & R & Lv & cells & rest & E & F) G. split; [|split; auto]. cbn. repeat split; auto.
  - rewrite G, map_length in Lv. congruence.
  - exists (length rest). rewrite E. apply mem_app.
    + rewrite G in F. clear -F. revert cells F. induction l as [|x l IH]; intros cells F; inversion F; subst; constructor; [assumption|]. apply IH. assumption.
    + clear. induction rest; constructor; auto. left. reflexivity.
Qed.
Lemma pok_slot a g idx : pok a g -> valid_index (a_dims a) idx ->
  slice_call chk (toSlice perm a) idx = Ok (Z.of_nat (ArrayProofs.slotn perm (a_dims a) idx)) /\ ArrayProofs.slotn perm (a_dims a) idx < length (g_vals g).
Proof.
  intros (L & S & Rx & D & R & Lv & _) Vi.
  assert (Pd : is_permutation perm (length (a_dims a))) by (rewrite L; exact P).
  rewrite IndexingProofs2.slice_call_valid by exact Vi. simpl. rewrite S, linear_index_lin; auto; [|rewrite L; exact NZ]. split; auto. rewrite Lv, <- D. destruct (valid_to_nat Vi) as [F _].
  rewrite <- (@gather_prod perm) by exact Pd. apply lin_bound, gather_lt; auto.
Qed.
Lemma pok_at a g idx v : pok a g -> valid_index (a_dims a) idx -> value perm g (map Z.to_nat idx) = Some (Some v) -> at_ chk perm a idx = Ok v.
Proof.
  intros G Vi E. pose proof (pok_slot G Vi) as [C Lt]. destruct G as (L & S & Rx & D & R & Lv & cells & rest & Eb & F).
  unfold at_. rewrite C. cbn [bind]. rewrite to_ix_nat. cbn [bind]. unfold value in E. rewrite seen_slot in E; [|exact P|rewrite <- D; exact L|rewrite <- D; apply (valid_to_nat Vi)].
  unfold ArrayProofs.slotn in *. rewrite D in *. set (k := lin _ _) in *. unfold rd, aget. rewrite Eb.
  assert (Hk : nth_error (cells ++ rest) k = Some (Obj v)); [|rewrite Hk; reflexivity].
  clearbody k. clear -F E. revert k E. induction F as [|c o cs os Hc F IH]; intros [|k] E; try discriminate; cbn in *; [|apply IH; exact E].
  injection E as ->. cbn in Hc. congruence.
Qed.
Lemma known_skip cells os : Forall2 known cells os -> forall n, n <= length cells -> Forall2 known (firstn n cells) (firstn n os).
Proof. induction 1; intros [|n] H'; simpl in *; constructor; auto; [lia..|]. apply IHForall2. lia. Qed.
Lemma known_nth cells os : length cells = length os -> (forall k c o, nth_error cells k = Some c -> nth_error os k = Some o -> known c o) -> Forall2 known cells os.
Proof.
  revert os. induction cells as [|c cs IH]; intros [|o os] L H; try discriminate; constructor; [apply (H 0); reflexivity|].
  apply IH; [simpl in L; congruence|]. intros k. apply (H (S k)).
Qed.
Lemma nth_known cells os k c o : Forall2 known cells os -> nth_error cells k = Some c -> nth_error os k = Some o -> known c o.
Proof. intros F. revert k. induction F; intros [|k] A B; try discriminate; cbn in *; [congruence|]. eapply IHF; eauto. Qed.
Lemma uresize_pok a g ds : pok a g -> length ds = length perm -> forallb (fun d => 0 <=? d)%Z ds = true ->
  oks (resizeWithoutInitializationOrDestruction chk kind perm a ds) (fun a' => pok a' (fitted None g (map Z.to_nat ds))).
Proof.
  intros (L & S & Rx & D & R & Lv & cells & rest & Eb & F) Ld B. unfold resizeWithoutInitializationOrDestruction. rewrite ArrayProofs2.set_dims_ok.
  - replace (fold_left set_ext (combine (seq 0 (length perm)) ds) (a_dims a)) with (map Z.to_nat ds).
    2:{ rewrite <- Ld. symmetry. apply (@ArrayProofs2.set_all ds [] (a_dims a)). congruence. }
    cbn [bind]. rewrite multiplyAll_prod. pose proof (Forall2_len F) as Lc.
    assert (Sz : size a = length cells) by (unfold size; rewrite multiplyAll_prod, Lc, Lv, D; reflexivity).
    destruct (@reserve_triv (a_buf a) (size a) (prod (map Z.to_nat ds))) as (b & E & Lb & N); [rewrite Eb, app_length, Sz; lia|].
    rewrite E. cbn [bind]. apply oks_ok. repeat split; auto.
    + cbn. rewrite map_length. exact Ld.
    + cbn. unfold with_length. rewrite app_length, firstn_length, repeat_length. fold (prod (map Z.to_nat ds)). lia.
    + set (n := prod (map Z.to_nat ds)) in *. exists (firstn n b), (skipn n b). split; [cbn; rewrite firstn_skipn; reflexivity|].
      cbn [fitted g_vals]. fold n. apply known_nth.
      * unfold with_length. rewrite app_length, !firstn_length, repeat_length. lia.
      * intros k c o Hc Ho. assert (Hkn : k < n). { assert (Q : nth_error (firstn n b) k <> None) by congruence. apply nth_error_Some in Q. rewrite firstn_length in Q. lia. }
        unfold with_length in Ho. destruct (Nat.lt_ge_cases k (length (g_vals g))) as [A|A].
        -- rewrite nth_error_app1 in Ho by (rewrite firstn_length; lia). rewrite ArrayProofs.nth_error_firstn' in Hc by exact Hkn. rewrite ArrayProofs.nth_error_firstn' in Ho by exact Hkn.
           rewrite N in Hc by (rewrite Sz; lia). rewrite Eb, nth_error_app1 in Hc by lia. eapply nth_known; eauto.
        -- rewrite nth_error_app2 in Ho by (rewrite firstn_length; lia). apply nth_error_In, repeat_spec in Ho. subst o. exact I.
  - apply Forall_forall. intros [i d] Hin. apply in_combine_l in Hin. apply in_seq in Hin. cbn. lia.
  - apply forallb_forall. intros [i d] Hin. apply in_combine_r in Hin. rewrite forallb_forall in B. apply (B d Hin).
Qed.
Lemma uset_pok a g idx v : pok a g -> valid_index (a_dims a) idx -> oks (set_ chk true perm a idx v) (fun a' => pok a' (written perm g (map Z.to_nat idx) (Some v))).
Proof.
  intros G Vi. pose proof (pok_slot G Vi) as [C Lt]. destruct G as (L & S & Rx & D & R & Lv & cells & rest & Eb & F).
  unfold set_. rewrite C. cbn [bind]. rewrite to_ix_nat. cbn [bind]. pose proof (Forall2_len F) as Lc.
  assert (W : g_vals (written perm g (map Z.to_nat idx) (Some v)) = upd (g_vals g) (ArrayProofs.slotn perm (a_dims a) idx) (Some v)).
  { unfold ArrayProofs.slotn. rewrite D. apply written_vals; [exact P|congruence|rewrite <- D; apply (valid_to_nat Vi)|exact Lv]. }
  set (k := ArrayProofs.slotn perm (a_dims a) idx) in *.
  assert (E : assign true (a_buf a) k v = Ok (upd (a_buf a) k (Obj v))).
  { assert (Hk : k < length (a_buf a)) by (rewrite Eb, app_length; lia). unfold assign, store, aget. destruct (nth_error (a_buf a) k) as [c|] eqn:Ek; [|apply nth_error_None in Ek; lia].
    cbn [bind]. unfold aset. destruct (Nat.ltb_spec k (length (a_buf a))); [|lia]. destruct c; reflexivity. }
  rewrite E. cbn [bind]. apply oks_ok. repeat split; auto.
  - rewrite W, upd_length. exact Lv.
  - exists (upd cells k (Obj v)), rest. split.
    + cbn. rewrite Eb. clearbody k. clear -Lt Lc. rewrite <- Lc in Lt. clear Lc. revert k Lt. induction cells as [|c cs IH]; intros [|k] Lt; simpl in *; try lia; [reflexivity|]. f_equal. apply IH. lia.
    + rewrite W. clearbody k. clear -F. revert k. induction F; intros [|k]; simpl; constructor; auto. reflexivity.
Qed.
Lemma urun_pok h : forall a g g', pok a g -> urun_spec perm h g = Some g' -> oks (urun chk kind perm h a) (fun a' => pok a' g').
Proof.
  induction h as [|c h IH]; intros a g g' G X; cbn [urun urun_spec] in *; [injection X as <-; apply oks_ok; exact G|].
  destruct (ustep_spec perm c g) as [g1|] eqn:E1; [|discriminate]. eapply oks_bind with (P := fun a1 => pok a1 g1); [|intros a1 G1; eapply IH; eauto].
  pose proof G as (L & S & Rx & D & _). destruct c; cbn [ustep ustep_spec] in *.
  - destruct ((length dims =? length (g_dims g)) && _)%bool eqn:B; [|discriminate]. injection E1 as <-. apply andb_true_iff in B. destruct B as [B1 B2]. apply Nat.eqb_eq in B1.
    apply uresize_pok; auto. congruence.
  - destruct (inside (g_dims g) idx) eqn:B; [|discriminate]. injection E1 as <-. apply uset_pok; auto. apply ArrayProofs2.inside_valid. rewrite D. exact B.
Qed.
End U.
