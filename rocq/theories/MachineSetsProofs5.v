(** Programs on a CRSMatrix within bounds do not overflow. *)
From Coq Require Import List Arith ZArith Lia Bool Sorting.Sorted.
From Verif Require Import Base BaseProofs Mem MemProofs ArrayManipProofs BufferManip BufferManipProofs
  Sorted SortedSpec SortedProofs SortedProofs2 SortedProofs3 SortedArraySpec AoA AoASpec AoALayout AoAProofs AoAProofs2 AoAProofs4
  AoS AoSSpec SetsProofs SetsProofs2 AoSProofs Sparsity SparsitySpec SparsityProofs CRS CRSSpec CRSProofs CRSProofs2 CRSProofs3 CRSProofs4
  MachineAoA MachineAoAProofs MachineAoAGen MachineSets MachineSetsSpec MachineSetsProofs MachineSetsProofs2 MachineSetsProofs3 MachineSetsProofs4.
From Verif Require ArrayManip.
Import ListNotations.
Set Implicit Arguments.
Unset Strict Implicit.

Section CRS.
Variable W : Type.
Variable hi N Q : nat.
Variable chk tw : bool.
Variable cmax : Z.
Variable add : W -> W -> W.
Variable zero : W.
Hypothesis N_ok : N + 1 <= hi.
Hypothesis NQ_ok : N * Q <= hi.
Hypothesis Q2_ok : 2 * Q <= hi.
Notation kind := BMalloc.
Notation aoa := (aoa Z W).
Notation X := (aoa * nat)%type.
Notation matrix := (pattern W).
Notation P := (Z * W)%type.
Notation fv := (@fst Z W).
Notation fw := (@snd Z W).
Notation aok := (@aok P Z W fv fw true tw true).
Notation iok := (@iok P Z W).
Notation rx := (@rx P Z W fv fw tw true).
Notation rowset := (@rowset P Z fv Z.ltb).
Notation mrep := (@mrep W tw).
Notation capped := (@capped P Z W Q).
Notation small L := (length L <= N /\ thin Q L).
Notation pincr l := (StronglySorted (fun x y => (fst x <? fst y)%Z = true) l).
Notation pins := (pinsert Z.ltb Z.eqb fv).
Implicit Types a : aoa.
Implicit Types A B L : list (list P * nat).
Implicit Types p : matrix.

(** The notifications: all positions are within the row. *)
Lemma mev nnz ws ev (x : X) : m_event hi ev = Ok tt -> m_crs_ev hi chk tw nnz ws ev x = crs_ev chk tw nnz ws ev x.
Proof. intros H. unfold m_crs_ev. rewrite H. reflexivity. Qed.
Lemma rx_len Qw A es C B pc s l (x : X) : rx Qw A es C B pc s l x -> length l <= C.
Proof. intros (q & _ & _ & H & _). exact H. Qed.
Ltac fits := cbn [m_event]; rewrite ?fit_ok by lia; cbn [bind]; repeat (rewrite fit_ok by lia; cbn [bind]); reflexivity.

Lemma m_ins_row t (cb : callbacks Z X) a A es k B w C e0 : aok a (A ++ (es, k) :: B) -> pincr es -> C <= hi ->
  (forall ev, cb_ev cb ev = m_crs_ev hi chk tw (length es) [snd w] ev) ->
  (let n := if present Z.eqb fv es (fst w) then 0 else 1 in
   okb t (cb_inc cb n (vals a, (a, e0))) (inc_post true fv (rx (eq LN) A es C B) es n)) ->
  okb t (insertIntoSetImpl chk true Z.ltb Z.eqb cb a e0 (length A) (fst w))
    (fun r => snd r = negb (present Z.eqb fv es (fst w)) /\ aok (fst r) (A ++ (pins w es, C - length (pins w es)) :: B)).
Proof.
  intros H I HC EV Hi. eapply okb_mono.
  - apply (@insertSet_ok P Z W fv fw chk true tw true Z.ltb Z.eqb zorder cb a A es k B w e0 t C H I Hi).
    intros p' s' f1 g1 x' -> R. rewrite EV. pose proof (rx_len R) as Le. rewrite app_length, map_length, app_length in Le. simpl in Le.
    rewrite mev by fits. apply ev_insert. exact R.
  - intros r (H1 & _ & H2). auto.
Qed.
Lemma m_inss_row t (cb : callbacks Z X) a A es k B ws C e0 : aok a (A ++ (es, k) :: B) -> pincr es -> pincr ws -> C <= hi -> length ws <= hi ->
  (forall ev, cb_ev cb ev = m_crs_ev hi chk tw (length es) (map snd ws) ev) ->
  (let n := absent Z.eqb fv es ws in
   okb t (cb_inc cb n (vals a, (a, e0))) (inc_post true fv (rx (eq LN) A es C B) es n)) ->
  let es' := fold_right pins es ws in
  okb t (insertsIntoSetImpl chk true Z.ltb Z.eqb cb a e0 (length A) (map fst ws))
    (fun r => snd r = absent Z.eqb fv es ws /\ aok (fst r) (A ++ (es', C - length es') :: B)).
Proof.
  intros H I Iw HC Hw EV Hi es'. eapply okb_mono.
  - apply (@insertsSet_ok P Z W fv fw chk true tw true Z.ltb Z.eqb zorder cb a A es k B ws e0 t C H I Iw Hi).
    + intros _ j w x p' s' f1 g Nw L R. rewrite EV. pose proof (rx_len R) as Le. rewrite app_length, map_length in Le. simpl in Le.
      rewrite mev by fits. eapply ev_set; eauto.
    + intros j w nl f1 g1 h1 x p' s' Nw R. rewrite EV. pose proof (rx_len R) as Le.
      rewrite !app_length, !map_length, app_length, repeat_length in Le.
      assert (j < length ws) by (apply nth_error_Some; congruence).
      rewrite mev by fits. apply ev_insertN; auto.
  - intros r (H1 & _ & H2). auto.
Qed.
Lemma m_rem_row cap a A es k B v : aok a (A ++ (es, k) :: B) -> pincr es -> length es + k <= hi ->
  let es' := pdiff Z.eqb fv es [v] in
  oks (removeFromSetImpl chk true Z.ltb Z.eqb (m_crs_view_cb hi chk tw (length A) (length es) cap []) a (length (flat fv A)) (length A) v)
    (fun r => length es = length es' + flag (snd r) /\ iok (fst r) (A ++ (es', length es + k - length es') :: B)).
Proof.
  intros H I HC es'. eapply oks_mono.
  - apply (@removeSet_ok P Z W fv fw chk true tw true Z.ltb Z.eqb zorder _ a A es k B v _ H I); [auto|].
    intros p s f1 e g1 x' -> _ R. cbn [cb_ev m_crs_view_cb]. rewrite app_length in HC. simpl in HC. rewrite mev by fits. apply ev_remove. exact R.
  - intros r (_ & E & [H' _]). auto.
Qed.
Lemma m_rems_row cap a A es k B vs : aok a (A ++ (es, k) :: B) -> pincr es -> StronglySorted (fun x y => (x <? y)%Z = true) vs -> length es + k <= hi ->
  let es' := pdiff Z.eqb fv es vs in
  oks (removesFromSetImpl chk true Z.ltb Z.eqb (m_crs_view_cb hi chk tw (length A) (length es) cap []) a (length (flat fv A)) (length A) vs)
    (fun r => length es = length es' + snd r /\ iok (fst r) (A ++ (es', length es + k - length es') :: B)).
Proof.
  intros H I Iv HC es'. eapply oks_mono.
  - apply (@removesSet_ok P Z W fv fw chk true tw true Z.ltb Z.eqb zorder _ a A es k B vs _ H I Iv); [auto|].
    intros pc s f1 g1 e n x' Rx g2 g3 ->. cbn [cb_ev m_crs_view_cb]. pose proof (rx_len Rx) as Le. unfold gaps in Le.
    rewrite !app_length, !map_length, repeat_length in Le. simpl in Le. rewrite app_length in Le. rewrite mev by fits. apply ev_removeN with (e := e). exact Rx.
  - intros r (E & H' & _). auto.
Qed.

Lemma e_crs_inc p ws a A es k B n e0 : aok a (A ++ (es, k) :: B) -> small (A ++ (es, k) :: B) -> ncols p <= Q -> length es + n <= Q ->
  cb_inc (m_crs_cb hi chk tw kind p (length A) (length es) (length es + k) ws) n (vals a, (a, e0)) =
  cb_inc (crs_cb chk tw kind p (length A) (length es) (length es + k) ws) n (vals a, (a, e0)).
Proof.
  intros H S Hc Hn. cbn [cb_inc crs_cb m_crs_cb]. rewrite set_same. rewrite !fit_ok by lia. cbn [bind]. rewrite fit_ok by lia. cbn [bind].
  destruct (length es + k <? length es + n); [|reflexivity]. rewrite fit_ok by lia. cbn [bind].
  destruct (e_setcap chk N_ok NQ_ok (c := clamp p (2 * (length es + n))) H S) as [-> _]; [apply (clamp_le N_ok NQ_ok); auto|]. reflexivity.
Qed.

Lemma c_insert p M nc i S w : mrep p (M, nc) -> capped (rows p) -> length M <= N -> nc <= Q -> nth_error M i = Some S -> in_range nc (fst w) ->
  same (m_crs_insertNonZero hi chk tw kind p i (fst w) (snd w)) (crs_insertNonZero chk tw kind p i (fst w) (snd w)) (fun r => capped (rows (fst r))).
Proof.
  intros ((L & H & F) & E & G) Cp LN Ln Ns Hw. cbn [fst snd] in *. pose proof (mranged_at G Ns) as GS. pose proof (f2_len F) as LL.
  destruct (f2_at F Ns) as (A & es & k & B & -> & <- & R & Pt). pose proof R as [I _]. pose proof H as [Ia _]. simpl in I.
  assert (Sm : small (A ++ (es, k) :: B)) by (split; [rewrite LL; exact LN|exact (Cp _ Ia)]).
  pose proof (proj1 (thin_app Q A ((es, k) :: B)) (proj2 Sm)) as [Th1 Th2]. inversion Th2 as [|? ? Wk Th3]; subst. unfold AoALayout.wid in Wk. simpl in Wk.
  assert (Iw : pincr [w]) by repeat constructor. assert (Fw : Forall (in_range (ncols p)) (map fst [w])) by (simpl; auto).
  pose proof (row_le (rowset_ins 0 R Iw) (inserted_range GS Fw)) as Lr. rewrite (@pinserts_length Z P Z.ltb Z.eqb fv zorder [w] es) in Lr by auto.
  pose proof (grown_enough eq_refl R GS Iw Fw) as Ge.
  assert (GQ : grown p es k (absent Z.eqb fv es [w]) <= Q).
  { unfold grown. destruct (_ <? _); [apply (clamp_le N_ok NQ_ok); auto|exact Wk]. }
  unfold m_crs_insertNonZero, crs_insertNonZero, numNonZeros, nonZeroCapacity. rewrite (row_size chk Ia). cbn [bind].
  destruct (e_cap chk N_ok NQ_ok H Sm) as [-> ->]. cbn [bind]. apply same_with.
  refine (@e_insert P Z W fv fw hi N Q chk true tw true Z.ltb Z.eqb N_ok NQ_ok _ _ _ _ A B (grown p es k (absent Z.eqb fv es [w])) (pins w es) (A ++ (es, k) :: B) Sm _ (conj Th1 Th3) GQ _ (rows p) tw 0 (fst w) _ _).
  - intros. apply sim_crs_inc.
  - intros. apply sim_event.
  - rewrite !app_length. reflexivity.
  - rewrite <- pin1, (@pinserts_length Z P Z.ltb Z.eqb fv zorder [w] es) by auto. exact Ge.
  - eapply m_ins_row; [exact H|exact I|lia|reflexivity|]. cbn zeta. rewrite <- absent1.
    rewrite (e_crs_inc _ 0 H Sm) by (auto; lia). apply owner_inc; [exact H|exact Ge].
Qed.
Lemma c_inserts p M nc i S ws : mrep p (M, nc) -> capped (rows p) -> length M <= N -> nc <= Q -> nth_error M i = Some S ->
  increasing Z.ltb (map fst ws) -> Forall (in_range nc) (map fst ws) ->
  same (m_crs_insertNonZeros hi chk tw kind p i (map fst ws) (map snd ws)) (crs_insertNonZeros chk tw kind p i (map fst ws) (map snd ws)) (fun r => capped (rows (fst r))).
Proof.
  intros ((L & H & F) & E & G) Cp LN Ln Ns Iw Fw. cbn [fst snd] in *. pose proof (mranged_at G Ns) as GS. pose proof (f2_len F) as LL.
  destruct (f2_at F Ns) as (A & es & k & B & -> & <- & R & Pt). pose proof R as [I _]. pose proof H as [Ia _]. simpl in I.
  assert (Sm : small (A ++ (es, k) :: B)) by (split; [rewrite LL; exact LN|exact (Cp _ Ia)]).
  pose proof (proj1 (thin_app Q A ((es, k) :: B)) (proj2 Sm)) as [Th1 Th2]. inversion Th2 as [|? ? Wk Th3]; subst. unfold AoALayout.wid in Wk. simpl in Wk.
  apply keys_incr in Iw.
  assert (Lw : length ws <= ncols p).
  { rewrite <- (map_length fst). apply (in_range_card (S := fun c => In c (map fst ws))); [rewrite Forall_forall in Fw; auto|].
    exists (map fst ws). split; [exact (pincr_nodup_keys zorder Iw)|]. split; [reflexivity|auto]. }
  pose proof (row_le (rowset_ins 0 R Iw) (inserted_range GS Fw)) as Lr. rewrite (@pinserts_length Z P Z.ltb Z.eqb fv zorder ws es) in Lr by auto.
  pose proof (grown_enough eq_refl R GS Iw Fw) as Ge. set (n := absent Z.eqb fv es ws) in *.
  assert (GQ : grown p es k n <= Q).
  { unfold grown. destruct (_ <? _); [apply (clamp_le N_ok NQ_ok); auto|exact Wk]. }
  unfold m_crs_insertNonZeros, crs_insertNonZeros, numNonZeros, nonZeroCapacity. rewrite map_length. rewrite fit_ok by lia. cbn [bind].
  rewrite (row_size chk Ia). cbn [bind]. destruct (e_cap chk N_ok NQ_ok H Sm) as [-> ->]. cbn [bind]. apply same_with.
  refine (@e_inserts P Z W fv fw hi N Q chk true tw true Z.ltb Z.eqb N_ok NQ_ok _ _ _ _ A B (grown p es k n) (fold_right pins es ws) (A ++ (es, k) :: B) Sm _ (conj Th1 Th3) GQ _ (rows p) tw 0 (map fst ws) (fun r => snd r = n) _ _).
  - intros. apply sim_crs_inc.
  - intros. apply sim_event.
  - rewrite !app_length. reflexivity.
  - rewrite (@pinserts_length Z P Z.ltb Z.eqb fv zorder ws es) by auto. exact Ge.
  - intros r ->. lia.
  - eapply m_inss_row; [exact H|exact I|exact Iw|lia|lia|reflexivity|]. cbn zeta. fold n.
    rewrite (e_crs_inc _ 0 H Sm) by (auto; lia). apply owner_inc; [exact H|exact Ge].
Qed.
Lemma c_remove p M nc i S v : mrep p (M, nc) -> capped (rows p) -> length M <= N -> nth_error M i = Some S ->
  same (m_crs_removeNonZero hi chk tw p i v) (crs_removeNonZero chk tw p i v) (fun r => capped (rows (fst r))).
Proof.
  intros ((L & H & F) & E & G) Cp LN Ns. cbn [fst snd] in *. pose proof (f2_len F) as LL.
  destruct (f2_at F Ns) as (A & es & k & B & -> & <- & R & Pt). pose proof R as [I _]. pose proof H as [Ia _]. simpl in I.
  assert (Sm : small (A ++ (es, k) :: B)) by (split; [rewrite LL; exact LN|exact (Cp _ Ia)]).
  pose proof (proj1 (thin_app Q A ((es, k) :: B)) (proj2 Sm)) as [Th1 Th2]. inversion Th2 as [|? ? Wk Th3]; subst. unfold AoALayout.wid in Wk. simpl in Wk.
  unfold m_crs_removeNonZero, crs_removeNonZero, numNonZeros, nonZeroCapacity. rewrite (row_size chk Ia). cbn [bind].
  destruct (e_cap chk N_ok NQ_ok H Sm) as [-> ->]. cbn [bind]. rewrite (row_entries chk Ia). cbn [bind]. apply same_with.
  assert (Hh : length es + k <= hi) by lia. pose proof (m_rem_row (length es + k) v H I Hh) as K. cbn zeta in K.
  refine (@e_remove P Z W hi N Q chk true Z.ltb Z.eqb N_ok NQ_ok _ _ _ A B (length es + k) (pdiff Z.eqb fv es [v]) (A ++ (es, k) :: B) Sm _ (conj Th1 Th3) Wk _ (rows p) _ v _ K).
  - intros. apply sim_event.
  - rewrite !app_length. reflexivity.
  - destruct K as (r & _ & K & _). lia.
Qed.
Lemma c_removes p M nc i S vs : mrep p (M, nc) -> capped (rows p) -> length M <= N -> nth_error M i = Some S -> increasing Z.ltb vs ->
  same (m_crs_removeNonZeros hi chk tw p i vs) (crs_removeNonZeros chk tw p i vs) (fun r => capped (rows (fst r))).
Proof.
  intros ((L & H & F) & E & G) Cp LN Ns Iv. cbn [fst snd] in *. pose proof (f2_len F) as LL. apply increasing_strong in Iv.
  destruct (f2_at F Ns) as (A & es & k & B & -> & <- & R & Pt). pose proof R as [I _]. pose proof H as [Ia _]. simpl in I.
  assert (Sm : small (A ++ (es, k) :: B)) by (split; [rewrite LL; exact LN|exact (Cp _ Ia)]).
  pose proof (proj1 (thin_app Q A ((es, k) :: B)) (proj2 Sm)) as [Th1 Th2]. inversion Th2 as [|? ? Wk Th3]; subst. unfold AoALayout.wid in Wk. simpl in Wk.
  unfold m_crs_removeNonZeros, crs_removeNonZeros, numNonZeros, nonZeroCapacity. rewrite (row_entries chk Ia). cbn [bind]. rewrite (row_size chk Ia). cbn [bind].
  destruct (e_cap chk N_ok NQ_ok H Sm) as [-> ->]. cbn [bind].
  assert (Hh : length es + k <= hi) by lia. pose proof (m_rems_row (length es + k) H I Iv Hh) as K. cbn zeta in K.
  eapply same_bind.
  - refine (@e_removes P Z W hi N Q chk true Z.ltb Z.eqb N_ok NQ_ok _ _ _ A B (length es + k) (pdiff Z.eqb fv es vs) (A ++ (es, k) :: B) Sm _ (conj Th1 Th3) Wk _ (rows p) _ vs _ _ K).
    + intros. apply sim_event.
    + rewrite !app_length. reflexivity.
    + destruct K as (r & _ & K & _). lia.
    + intros r K'. lia.
  - intros [a r] Ca. cbn [fst snd] in *. apply same_pre. intros f. apply same_pre. intros b. apply same_ok. exact Ca.
Qed.

(** Only the entries change. *)
Lemma then_for_up {Y} (f : nat -> Y -> outcome Y) (R : Y -> Prop) n : (forall i x, R x -> then_ (f i x) R) -> forall i x, R x -> then_ (for_up n f i x) R.
Proof.
  intros H. induction n as [|n IH]; intros i x Hx; cbn [for_up]; [apply then_ok; auto|].
  eapply then_bind; [apply H; exact Hx|]. intros y Hy. apply IH. exact Hy.
Qed.
Lemma c_set p v : capped (rows p) -> then_ (crs_setValues chk tw p v) (fun p => capped (rows p)).
Proof.
  intros H. unfold crs_setValues, on_rows, each_row. eapply then_bind; [|intros a Ha; apply then_ok; exact Ha].
  apply then_for_up; auto. intros i a Ha. unfold set_row. apply then_any. intros n. apply then_any. intros e. apply then_any. intros b. apply then_ok. exact Ha.
Qed.
Lemma c_zero p : capped (rows p) -> then_ (crs_zero tw p zero) (fun p => capped (rows p)).
Proof. intros H. unfold crs_zero. destruct tw; [apply then_ok; exact H|intros y E; discriminate]. Qed.
Lemma c_addUnsorted p i adds : capped (rows p) -> then_ (addUnsorted chk tw add p i adds) (fun p => capped (rows p)).
Proof. intros H. unfold addUnsorted. do 4 (apply then_any; intro). apply then_ok. exact H. Qed.
Lemma c_add p i adds : capped (rows p) -> then_ (addToRow chk tw add p i adds) (fun p => capped (rows p)).
Proof.
  intros H. unfold addToRow. apply then_any. intros n. destruct (_ && _)%bool; unfold addBinary, addLinear.
  - do 3 (apply then_any; intro). apply then_any. intros [b q]. apply then_ok. exact H.
  - do 3 (apply then_any; intro). apply then_any. intros [b q]. apply then_ok. exact H.
Qed.

Notation cstep := (cstep chk tw kind cmax add zero).
Notation crun := (crun chk tw kind cmax add zero).
Notation m_cstep := (m_cstep hi chk tw kind cmax add zero).
Notation m_crun := (m_crun hi chk tw kind cmax add zero).

Lemma c_step c p st st' : mrep p st -> capped (rows p) -> inside N Q st -> callowed tw c st -> mat_step add zero cmax c st = Some st' ->
  c_asks Q c -> inside N Q st' ->
  same (m_cstep c p) (cstep c p) (fun r => capped (rows (fst r))).
Proof.
  destruct st as [M nc]. intros PR Cp [LM Ln] Al E As [LM' Ln']. pose proof PR as (R & Ec & G). cbn [fst snd] in LM, Ln, R, Ec, G.
  pose proof R as (L & H & F). pose proof (f2_len F) as LL. pose proof H as [Ia _].
  assert (Sm : small L) by (split; [rewrite LL; exact LM|exact (Cp _ Ia)]).
  assert (Nc : ncols p <= Q) by (rewrite Ec; exact Ln).
  destruct c as [nr nc' cap|nc' caps|n|i n|i c| |i v w|i vs|i v|i vs|v| |i adds|i adds]; cbn [CRSSpec.mat_step CRS.cstep MachineSets.m_cstep c_asks callowed fst snd] in *;
    unfold on_elem in E; try (destruct (nth_error M i) as [S|] eqn:Ns; [|discriminate]);
    try (destruct (cmax <? Z.of_nat nc' - 1)%Z; [discriminate|]); injection E as <-; cbn [fst snd] in *; try apply same_quiet; try apply same_pflag.
  - eapply r_resize; eauto. unfold resized_to in LM'. rewrite app_length, firstn_length, repeat_length in LM'. lia.
  - eapply r_caps; eauto. rewrite map_length in LM'. auto.
  - split; auto. eapply (r_reserveNonZeros (N := N)); eauto.
  - destruct (f2_at F Ns) as (A & es & k & B & -> & <- & Rs & Pt). eapply r_reserveRow; eauto.
  - destruct (f2_at F Ns) as (A & es & k & B & -> & <- & Rs & Pt). eapply r_setRow; eauto.
  - eapply r_compress; eauto.
  - apply (c_insert (w := (v, w)) PR Cp LM Ln Ns Al).
  - destruct Al as [Al1 Al2]. exact (c_inserts PR Cp LM Ln Ns Al1 Al2).
  - exact (c_remove v PR Cp LM Ns).
  - exact (c_removes PR Cp LM Ns Al).
  - split; auto. apply c_set. exact Cp.
  - split; auto. apply c_zero. exact Cp.
  - split; auto. apply c_add. exact Cp.
  - split; auto. apply c_addUnsorted. exact Cp.
Qed.
Lemma c_run h : forall p st, mrep p st -> capped (rows p) -> inside N Q st -> cvalid add zero tw cmax h st -> mat_run add zero cmax h st <> None ->
  c_within N Q add zero cmax h st -> m_crun h p = crun h p.
Proof.
  induction h as [|c h IH]; intros p st R Cp In V Nn Wi; cbn [mat_run CRS.crun MachineSets.m_crun c_within] in *; auto.
  destruct V as [Al V]. pose proof (@cstep_ok W chk tw add zero cmax c p st R Al) as St.
  destruct (mat_step add zero cmax c st) as [st'|] eqn:E; [|congruence]. destruct Wi as (As & In' & Wi).
  destruct (c_step R Cp In Al E As In') as [Es Th]. rewrite Es.
  destruct St as [([p1 r] & E1 & R1 & _)|[_ E1]]; rewrite E1; cbn [bind]; auto. eapply IH; eauto. apply (Th _ E1).
Qed.
Lemma c_new nr nc cap : nr <= N -> cap <= Q ->
  same (m_new_sp W hi chk tw true kind cmax nr nc cap) (new_sp W chk tw true kind cmax nr nc cap) (fun p => capped (rows p)).
Proof.
  intros Hn Hc. unfold m_new_sp, new_sp, m_sp_resize, sp_resize. apply same_pre. intros _. cbn [rows].
  eapply same_bind; [apply (@r_new P W fv fw hi N Q); auto|]. intros a H'. apply same_ok. exact H'.
Qed.
Lemma c_total p st : mrep p st -> inside N Q st -> m_totalNonZeros hi chk p = totalNonZeros chk p.
Proof.
  destruct st as [M nc]. intros ((L & H & F) & Ec & G) [LM Ln]. cbn [fst snd] in *. eapply (r_total (N := N)); [auto|exact NQ_ok|exact H|rewrite (f2_len F); auto|].
  clear -F G Ln. induction F as [|[es k] S L M R F IH]; constructor.
  - simpl. assert (length es <= nc); [|lia]. eapply row_le; [exact R|]. intros c. apply G. left. auto.
  - apply IH. intros S' y Hi. apply G. right. auto.
Qed.
End CRS.
