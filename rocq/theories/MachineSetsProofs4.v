(** Programs on a SparsityPattern within bounds do not overflow. *)
From Coq Require Import List Arith ZArith Lia Bool Sorting.Sorted.
From Verif Require Import Base BaseProofs Mem MemProofs ArrayManipProofs BufferManip BufferManipProofs
  Sorted SortedSpec SortedProofs SortedProofs2 SortedProofs3 SortedArraySpec AoA AoASpec AoALayout AoAProofs AoAProofs2 AoAProofs4
  AoS AoSSpec SetsProofs SetsProofs2 AoSProofs Sparsity SparsitySpec CRS CRSSpec SparsityProofs
  MachineAoA MachineAoAProofs MachineAoAGen MachineSets MachineSetsSpec MachineSetsProofs MachineSetsProofs2 MachineSetsProofs3.
From Verif Require ArrayManip AoAProofs3.
Import ListNotations.
Set Implicit Arguments.
Unset Strict Implicit.

Notation same m f R := (m = f /\ then_ f R).
Lemma same_bind {A B} (m f : outcome A) (k k' : A -> outcome B) R R' : same m f R -> (forall x, R x -> same (k x) (k' x) R') -> same (bind m k) (bind f k') R'.
Proof.
  intros [-> H] K. destruct f as [x| |]; cbn [bind]; [apply K; apply H; reflexivity|..]; split; auto; intros y E; discriminate.
Qed.
Lemma same_ok {A} (x : A) (R : A -> Prop) : R x -> same (Ok x) (Ok x) R.
Proof. split; auto. apply then_ok. auto. Qed.
Lemma same_pre {A B} (m : outcome A) (k k' : A -> outcome B) R' : (forall x, same (k x) (k' x) R') -> same (bind m k) (bind m k') R'.
Proof. intros H. apply same_bind with (R := fun _ => True); auto. split; auto. intros x _. exact I. Qed.

(** For patterns and matrices alike. *)
Section Rows.
Variable P W : Type.
Variable fv : P -> Z.
Variable fw : P -> W.
Variable hi N Q : nat.
Variable chk tw dual : bool.
Variable cmax : Z.
Hypothesis N_ok : N + 1 <= hi.
Hypothesis NQ_ok : N * Q <= hi.
Notation kind := BMalloc.
Notation aok := (@aok P Z W fv fw true tw dual).
Notation capped := (@capped P Z W Q).
Notation small L := (length L <= N /\ thin Q L).
Notation Cap := (fun p : pattern W => capped (rows p)).
Implicit Types p : pattern W.
Implicit Types L A B : list (list P * nat).

Lemma same_quiet (m f : outcome (pattern W)) : same m f Cap -> same (quiet m) (quiet f) (fun r => capped (rows (fst r))).
Proof. intros H. unfold quiet. eapply same_bind; [exact H|]. intros p H'. apply same_ok. exact H'. Qed.
Lemma same_pflag {Y} (m f : outcome (pattern W * Y)) (g : Y -> nat) : same m f (fun r => capped (rows (fst r))) ->
  same ('(p', r) <- m ;; Ok (p', g r)) ('(p', r) <- f ;; Ok (p', g r)) (fun r => capped (rows (fst r))).
Proof. intros H. eapply same_bind; [exact H|]. intros [p' r] H'. apply same_ok. exact H'. Qed.
Lemma same_rows (m f : outcome (aoa Z W)) p : same m f capped -> same (on_rows m p) (on_rows f p) Cap.
Proof. intros H. unfold on_rows. eapply same_bind; [exact H|]. intros a H'. apply same_ok. exact H'. Qed.
Lemma same_with {Y} p (m f : outcome (aoa Z W * Y)) : same m f (fun r => capped (fst r)) ->
  same (with_rows p m) (with_rows p f) (fun r => capped (rows (fst r))).
Proof. intros H. unfold with_rows. eapply same_bind; [exact H|]. intros [a r] H'. apply same_ok. exact H'. Qed.

Lemma clamp_le p c : ncols p <= Q -> clamp p c <= Q.
Proof. intros H. unfold clamp. destruct (Nat.ltb_spec (ncols p) c); lia. Qed.
Lemma r_resize p L n nc cap : aok (rows p) L -> small L -> n <= N -> cap <= Q ->
  same (m_sp_resize hi chk tw dual kind cmax p n nc cap) (sp_resize chk tw dual kind cmax p n nc cap) Cap.
Proof.
  intros H S Hn Hc. unfold m_sp_resize, sp_resize. apply same_pre. intros _.
  eapply same_bind; [eapply (e_resize chk N_ok NQ_ok); eauto|]. intros a H'. apply same_ok. exact H'.
Qed.
Lemma r_caps p L nc caps : aok (rows p) L -> small L -> length caps <= N -> Forall (fun c => c <= Q) caps ->
  same (m_sp_resizeFromRowCapacities hi chk tw dual kind cmax p nc caps) (sp_resizeFromRowCapacities chk tw dual kind cmax p nc caps) Cap.
Proof.
  intros H S Hn Hc. unfold m_sp_resizeFromRowCapacities, sp_resizeFromRowCapacities. apply same_pre. intros _.
  eapply same_bind; [eapply (e_caps chk N_ok NQ_ok); eauto|]. intros a H'. apply same_ok. exact H'.
Qed.
Lemma r_setRow p A r k B c : aok (rows p) (A ++ (r, k) :: B) -> small (A ++ (r, k) :: B) -> ncols p <= Q ->
  same (m_setRowCapacity hi chk tw dual kind p (length A) c) (setRowCapacity chk tw dual kind p (length A) c) Cap.
Proof.
  intros H S Hc. unfold m_setRowCapacity, setRowCapacity. apply same_rows. eapply (e_setcap chk N_ok NQ_ok); eauto. apply clamp_le. auto.
Qed.
Lemma r_reserveRow p A r k B c : aok (rows p) (A ++ (r, k) :: B) -> small (A ++ (r, k) :: B) -> ncols p <= Q ->
  same (m_reserveRow hi chk tw dual kind p (length A) c) (reserveRow chk tw dual kind p (length A) c) Cap.
Proof.
  intros H S Hc. unfold m_reserveRow, reserveRow, nonZeroCapacity. destruct (e_cap chk N_ok NQ_ok H S) as [-> ->]. cbn [bind].
  destruct (c <=? length r + k); [|eapply r_setRow; eauto]. apply same_ok. eapply (aok_capped N_ok NQ_ok); [exact H|apply S].
Qed.
Lemma r_compress p L : aok (rows p) L -> small L -> same (m_sp_compress hi chk tw dual p) (sp_compress chk tw dual p) Cap.
Proof. intros H S. unfold m_sp_compress, sp_compress. apply same_rows. eapply (e_compress chk N_ok NQ_ok); eauto. Qed.
Lemma r_reserveNonZeros p L n : aok (rows p) L -> small L -> then_ (reserveNonZeros chk tw dual kind p n) Cap.
Proof.
  intros H S. unfold reserveNonZeros, on_rows. eapply then_bind; [eapply (e_reserveValues N_ok NQ_ok); eauto|].
  intros a H'. apply then_ok. exact H'.
Qed.
Lemma r_append p L c : aok (rows p) L -> small L -> length L < N -> ncols p <= Q ->
  same (m_appendRow hi chk tw dual kind p c) (appendRow chk tw dual kind p c) Cap.
Proof.
  intros H S Hl Hc. unfold m_appendRow, appendRow. rewrite (m_push_eq chk H) by lia.
  destruct (push_ok chk H) as (a1 & -> & H1). cbn [bind]. pose proof H1 as [(N1 & _) _]. rewrite N1.
  replace (length (L ++ [([], 0)]) - 1) with (length L) by len. eapply (r_setRow (p := mkSP a1 (ncols p))); [exact H1| |exact Hc].
  split; [rewrite app_length; simpl; lia|]. apply thin_app. split; [apply S|]. constructor; auto. unfold AoALayout.wid. simpl. lia.
Qed.
Lemma r_new n cap : n <= N -> cap <= Q ->
  same (m_resizeImpl hi chk true tw dual kind (null_aoa Z W kind) n cap) (resizeImpl chk true tw dual kind (null_aoa Z W kind) n cap) capped.
Proof.
  intros Hn Hc. split.
  - pose proof (@m_new_exact P Z W fv fw hi chk true tw dual n cap) as K. unfold m_new_aoa, new_aoa in K. rewrite K by lia.
    assert (n * cap <= N * Q) by (apply Nat.mul_le_mono; auto). destruct (Nat.leb_spec (n * cap) hi); [reflexivity|lia].
  - eapply okb_then; [exact (@resize_ok P Z W fv fw chk true tw dual (null_aoa Z W kind) [] n cap (@null_pok P Z W fv fw true tw dual))|].
    intros a H'. eapply (aok_capped N_ok NQ_ok); [exact H'|]. unfold resized. simpl. rewrite firstn_nil. simpl.
    apply Forall_forall. intros x Hx. apply repeat_spec in Hx. subst. exact Hc.
Qed.
(** The total number of non-zeros, when every row has at most [Q] of them. *)
Lemma r_total p L : aok (rows p) L -> length L <= N -> Forall (fun x => length (fst x) <= Q) L ->
  m_totalNonZeros hi chk p = totalNonZeros chk p.
Proof.
  intros [I _] Hl F. unfold m_totalNonZeros, totalNonZeros. pose proof I as (Nn & _). rewrite Nn.
  assert (K : forall B A acc, L = A ++ B -> acc <= length A * Q ->
    for_up (length B) (fun row nnz => n <- numNonZeros chk p row ;; fit hi (nnz + n)) (length A) acc =
    for_up (length B) (fun row nnz => n <- numNonZeros chk p row ;; Ok (nnz + n)) (length A) acc).
  { induction B as [|[es k] B IH]; intros A acc E Ha; simpl; auto. unfold numNonZeros at 1 3. subst L. rewrite (row_size chk I). cbn [bind].
    apply Forall_app in F. destruct F as [_ F]. inversion F as [|? ? Fe _]; subst. simpl in Fe.
    rewrite app_length in Hl. simpl in Hl. assert ((length A + 1) * Q <= N * Q) by (apply Nat.mul_le_mono_r; lia).
    rewrite fit_ok by lia. cbn [bind]. specialize (IH (A ++ [(es, k)]) (acc + length es)). rewrite app_length in IH. simpl in IH.
    replace (Datatypes.S (length A)) with (length A + 1) by lia. apply IH; [rewrite <- app_assoc; reflexivity|lia]. }
  apply (K L [] 0); auto.
Qed.
End Rows.

Section Pattern.
Variable W : Type.
Variable w0 : W.
Variable hi N Q : nat.
Variable chk tw : bool.
Variable cmax : Z.
Hypothesis N_ok : N + 1 <= hi.
Hypothesis NQ_ok : N * Q <= hi.
Hypothesis Q2_ok : 2 * Q <= hi.
Notation kind := BMalloc.
Notation idv := (fun v : Z => v).
Notation fw := (fun _ : Z => w0).
Notation prep := (@prep W w0 tw).
Notation capped := (@capped Z Z W Q).
Notation pstep := (pstep chk tw false kind cmax).
Notation prun := (prun chk tw false kind cmax).
Notation m_pstep := (m_pstep hi chk tw false kind cmax).
Notation m_prun := (m_prun hi chk tw false kind cmax).
Implicit Types p : pattern W.

Lemma double_clamp_ok p nc (S : col_set) vs : ncols p = nc -> nc <= Q -> (forall x, S x -> in_range nc x) -> Forall (in_range nc) vs ->
  can_grow Q (fun n => k <- fit hi (n * 2) ;; Ok (clamp p k)) (fun n => clamp p (n * 2)) (sum_set S vs).
Proof.
  intros E Hn G F m C. pose proof (grow_enough E G F C) as Ge. apply (in_range_card (nc := nc)) in C; [|apply in_sum; auto].
  split; [lia|]. rewrite fit_ok by lia. cbn [bind]. split; auto. split; auto. apply (clamp_le N_ok NQ_ok). lia.
Qed.

Lemma p_step c p st st' : prep p st -> capped (rows p) -> inside N Q st -> pallowed c st -> pat_step cmax c st = Some st' ->
  p_asks hi Q c -> inside N Q st' ->
  same (m_pstep c p) (pstep c p) (fun r => capped (rows (fst r))).
Proof.
  destruct st as [M nc]. intros PR Cp [LM Ln] Al E As [LM' Ln']. pose proof PR as (R & Ec & G). simpl in LM, Ln, R, Ec, G.
  pose proof R as (L & H & F). pose proof (f2_len F) as LL. pose proof H as [Ia _].
  assert (Sm : length L <= N /\ thin Q L) by (split; [rewrite LL; exact LM|exact (Cp _ Ia)]).
  assert (Nc : ncols p <= Q) by (rewrite Ec; exact Ln).
  pose proof (fun n => sim_clamp hi p n) as Sd.
  destruct c as [nr nc' cap|nc' caps|n|n|i n|i c| |c|i v|i vs|i v|i vs]; cbn [pat_step Sparsity.pstep MachineSets.m_pstep p_asks pallowed fst snd] in *;
    unfold on_elem in E; try (destruct (nth_error M i) as [S|] eqn:Ns; [|discriminate]; pose proof (ranged_at G Ns) as GS);
    try (destruct (cmax <? Z.of_nat nc' - 1)%Z; [discriminate|]); injection E as <-; cbn [fst snd] in *; try apply same_quiet; try apply same_pflag.
  - eapply r_resize; eauto. unfold resized_to in LM'. rewrite app_length, firstn_length, repeat_length in LM'. lia.
  - eapply r_caps; eauto. rewrite map_length in LM'. auto.
  - apply same_rows. eapply (e_reserve chk N_ok NQ_ok); eauto.
  - split; auto. eapply (r_reserveNonZeros (N := N)); eauto.
  - destruct (f2_at F Ns) as (A & es & k & B & -> & <- & Rs & Pt). eapply r_reserveRow; eauto.
  - destruct (f2_at F Ns) as (A & es & k & B & -> & <- & Rs & Pt). eapply r_setRow; eauto.
  - eapply r_compress; eauto.
  - eapply r_append; eauto. rewrite app_length in LM'. simpl in LM'. rewrite LL. unfold col_set in *. lia.
  - unfold m_insertNonZero, insertNonZero. apply same_with. eapply (@g_insert Z W fw hi N Q chk true tw Z.ltb Z.eqb zorder N_ok NQ_ok _ _ Sd); eauto. eapply double_clamp_ok; eauto.
  - unfold m_insertNonZeros, insertNonZeros. destruct Al as [Al1 Al2]. apply same_with.
    eapply (@g_inserts Z W fw hi N Q chk true tw Z.ltb Z.eqb zorder N_ok NQ_ok _ _ Sd); eauto. eapply double_clamp_ok; eauto.
  - split; auto. unfold removeNonZero. apply then_any. intros _. apply then_any. intros _.
    unfold with_rows. eapply then_bind; [eapply (@g_remove Z W fw hi N Q chk true tw Z.ltb Z.eqb zorder N_ok NQ_ok); eauto|]. intros [a r] H'. apply then_ok. exact H'.
  - unfold m_removeNonZeros, removeNonZeros. apply same_pre. intros _. apply same_pre. intros _. apply same_with.
    destruct Al as [Al1 Al2]. eapply (@g_removes Z W fw hi N Q chk true tw Z.ltb Z.eqb zorder N_ok NQ_ok); eauto.
Qed.
Lemma p_run h : forall p st, prep p st -> capped (rows p) -> inside N Q st -> pvalid cmax h st -> pat_run cmax h st <> None ->
  p_within hi N Q cmax h st ->
  m_prun h p = prun h p /\ then_ (prun h p) (fun p => capped (rows p)).
Proof.
  induction h as [|c h IH]; intros p st R Cp In V Nn Wi; cbn [pat_run Sparsity.prun MachineSets.m_prun p_within] in *; [apply same_ok; auto|].
  destruct V as [Al V]. pose proof (pstep_ok chk cmax R Al) as St.
  destruct (pat_step cmax c st) as [st'|] eqn:E; [|congruence]. destruct Wi as (As & In' & Wi).
  destruct (p_step R Cp In Al E As In') as [Es Th]. rewrite Es.
  destruct St as ([p1 r] & E1 & R1 & _); rewrite E1; cbn [bind]. eapply IH; eauto. apply (Th _ E1).
Qed.

Lemma p_new nr nc cap : (cmax <? Z.of_nat nc - 1)%Z = false -> nr <= N -> cap <= Q ->
  same (m_new_sp W hi chk tw false kind cmax nr nc cap) (new_sp W chk tw false kind cmax nr nc cap) (fun p => capped (rows p)).
Proof.
  intros C Hn Hc. unfold m_new_sp, new_sp. unfold m_sp_resize, sp_resize. apply same_pre. intros _. cbn [rows].
  eapply same_bind; [apply (@r_new Z W idv fw hi N Q); auto|]. intros a H'. apply same_ok. exact H'.
Qed.

(** numNonZeros(), which is at most the number of rows times the number of columns *)
Lemma p_total p st : prep p st -> inside N Q st -> m_totalNonZeros hi chk p = totalNonZeros chk p.
Proof.
  destruct st as [M nc]. intros ((L & H & F) & Ec & G) [LM Ln]. simpl in *. eapply (r_total (N := N)); [auto|exact NQ_ok|exact H|rewrite (f2_len F); auto|].
  clear -F G Ln. induction F as [|x S L M R F IH]; constructor.
  - pose proof (rowset_card zorder R) as C. apply (in_range_card (nc := nc)) in C; [lia|]. intros y. apply G. left. auto.
  - apply IH. intros S' y Hi. apply G. right. auto.
Qed.
End Pattern.
