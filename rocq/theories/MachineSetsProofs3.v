(** Programs on ArrayOfSets and SparsityPattern within bounds do not overflow. *)
From Coq Require Import List Arith ZArith Lia Bool Sorting.Sorted.
From Verif Require Import Base BaseProofs Mem MemProofs ArrayManipProofs BufferManip BufferManipProofs
  Sorted SortedSpec SortedProofs SortedProofs2 SortedProofs3 SortedArraySpec AoA AoASpec AoALayout AoAProofs AoAProofs2 AoAProofs4
  AoS AoSSpec SetsProofs SetsProofs2 AoSProofs Sparsity SparsitySpec CRS CRSSpec SparsityProofs
  MachineAoA MachineAoAProofs MachineAoAGen MachineSets MachineSetsSpec MachineSetsProofs MachineSetsProofs2.
From Verif Require ArrayManip AoAProofs3.
Import ListNotations.
Set Implicit Arguments.
Unset Strict Implicit.

Section Plain.
Variable V W : Type.
Variable fw : V -> W.
Variable hi N Q : nat.
Variable chk tv tw : bool.
Variable lt eqb : V -> V -> bool.
Hypothesis T : total_order lt eqb.
Hypothesis N_ok : N + 1 <= hi.
Hypothesis NQ_ok : N * Q <= hi.
Notation kind := BMalloc.
Notation aoa := (aoa V W).
Notation idv := (fun v : V => v).
Notation rowset := (@rowset V V idv lt).
Notation rep := (@rep V V W idv fw tv tw false lt).
Notation aok := (@aok V V W idv fw tv tw false).
Notation capped := (@capped V V W Q).
Notation thin := (@thin V Q).
Notation small L := (length L <= N /\ thin L).
Notation same m f R := (m = f /\ then_ f R).
Notation set := (V -> Prop).
Implicit Types a : aoa.
Implicit Types M : list set.

Section Grow.
Variable mnew : nat -> outcome nat.
Variable newCap : nat -> nat.
Hypothesis Sim : forall n, sim (mnew n) (Ok (newCap n)).
Notation mcb := (m_grow_cb V W hi chk tv tw false kind mnew).
Notation gcb := (grow_cb V W chk tv tw false kind newCap).

(** If the new number of elements calls for a new capacity, it is computed and large enough. *)
Definition can_grow (S : set) : Prop := forall m, cardinal S m -> m <= Q /\ mnew m = Ok (newCap m) /\ m <= newCap m <= Q.

Lemma g_insert a M i S v : rep a M -> capped a -> length M <= N -> nth_error M i = Some S -> can_grow (sum_set S [v]) ->
  same (m_insertIntoSetImpl hi chk tv lt eqb (mcb i) a 0 i v) (insertIntoSetImpl chk tv lt eqb (gcb i) a 0 i v) (fun r => capped (fst r)).
Proof.
  intros (L & H & F) Cp LN Ns HC. pose proof (f2_len F) as LL. destruct (f2_at F Ns) as (A & es & k & B & -> & <- & R & Pt). pose proof R as [I _].
  pose proof H as [Ia _]. assert (Sm : small (A ++ (es, k) :: B)) by (split; [congruence|exact (Cp _ Ia)]).
  pose proof (proj1 (thin_app Q A ((es, k) :: B)) (proj2 Sm)) as [Th1 Th2]. inversion Th2 as [|? ? Wk Th3]; subst.
  unfold AoALayout.wid in Wk. simpl in Wk.
  assert (Es : length (pinsert lt eqb idv v es) = length es + (if present eqb idv es v then 0 else 1)) by exact (pinsert_len T v I).
  assert (Cd : cardinal (sum_set S [v]) (length (pinsert lt eqb idv v es))).
  { apply (@rowset_card V V idv lt eqb T (pinsert lt eqb idv v es, 0)). eapply rowset_sum1; eauto. }
  destruct (HC _ Cd) as (C1 & C2 & C3). rewrite Es in C1, C2, C3.
  set (n := if present eqb idv es v then 0 else 1) in *.
  set (C := if length es + k <? length es + n then newCap (length es + n) else length es + k).
  assert (CQ : C <= Q /\ length es + n <= C) by (unfold C; destruct (Nat.ltb_spec (length es + k) (length es + n)); lia).
  refine (@e_insert V V W idv fw hi N Q chk tv tw false lt eqb N_ok NQ_ok (gcb (length A)) (mcb (length A)) _ _ A B C (pinsert lt eqb idv v es) (A ++ (es, k) :: B) Sm _ (conj Th1 Th3) _ _ a _ 0 v _ _).
  - intros. apply sim_grow_cb. exact Sim.
  - intros. apply sim_refl.
  - rewrite !app_length. reflexivity.
  - lia.
  - lia.
  - eapply ins_plain with (cb := mcb (length A)); [exact T|reflexivity|exact H|exact I|].
    cbn zeta. fold n. rewrite (e_grow_inc chk N_ok NQ_ok (mnew := mnew) (newCap := newCap) 0 H Sm); [|lia|intros _; split; [exact C2|lia]].
    apply grow_inc_ok; [exact H|discriminate|]. intros _. lia.
Qed.
Lemma g_inserts a M i S vs : rep a M -> capped a -> length M <= N -> nth_error M i = Some S -> increasing lt vs -> can_grow (sum_set S vs) ->
  same (m_insertsIntoSetImpl hi chk tv lt eqb (mcb i) a 0 i vs) (insertsIntoSetImpl chk tv lt eqb (gcb i) a 0 i vs) (fun r => capped (fst r)).
Proof.
  intros (L & H & F) Cp LN Ns Iv HC. apply increasing_strong in Iv.
  pose proof (f2_len F) as LL. destruct (f2_at F Ns) as (A & es & k & B & -> & <- & R & Pt). pose proof R as [I _].
  pose proof H as [Ia _]. assert (Sm : small (A ++ (es, k) :: B)) by (split; [congruence|exact (Cp _ Ia)]).
  pose proof (proj1 (thin_app Q A ((es, k) :: B)) (proj2 Sm)) as [Th1 Th2]. inversion Th2 as [|? ? Wk Th3]; subst.
  unfold AoALayout.wid in Wk. simpl in Wk. pose proof (small_Q N_ok NQ_ok Sm) as QH.
  set (es' := fold_right (pinsert lt eqb idv) es vs).
  assert (Es : length es' = length es + absent eqb idv es vs) by exact (pinserts_len T I Iv).
  assert (Cd : cardinal (sum_set S vs) (length es')).
  { apply (@rowset_card V V idv lt eqb T (es', 0)). eapply rowset_sum; eauto. }
  destruct (HC _ Cd) as (C1 & C2 & C3). rewrite Es in C1, C2, C3.
  set (n := absent eqb idv es vs) in *.
  set (C := if length es + k <? length es + n then newCap (length es + n) else length es + k).
  assert (CQ : C <= Q /\ length es + n <= C) by (unfold C; destruct (Nat.ltb_spec (length es + k) (length es + n)); lia).
  refine (@e_inserts V V W idv fw hi N Q chk tv tw false lt eqb N_ok NQ_ok (gcb (length A)) (mcb (length A)) _ _ A B C es' (A ++ (es, k) :: B) Sm _ (conj Th1 Th3) _ _ a _ 0 vs (fun r => snd r = n) _ _).
  - intros. apply sim_grow_cb. exact Sim.
  - intros. apply sim_refl.
  - rewrite !app_length. reflexivity.
  - lia.
  - lia.
  - intros r ->. lia.
  - eapply inss_plain with (cb := mcb (length A)); [exact T|reflexivity|exact H|exact I|exact Iv|].
    cbn zeta. fold n. rewrite (e_grow_inc chk N_ok NQ_ok (mnew := mnew) (newCap := newCap) 0 H Sm); [|lia|intros _; split; [exact C2|lia]].
    apply grow_inc_ok; [exact H|discriminate|]. intros _. lia.
Qed.
End Grow.

Notation vcb := (view_cb V W chk).
Lemma g_remove a M i S v : rep a M -> capped a -> length M <= N -> nth_error M i = Some S ->
  then_ (removeFromSetImpl chk tv lt eqb (vcb i) a 0 i v) (fun r => capped (fst r)).
Proof.
  intros (L & H & F) Cp LN Ns. destruct (f2_at F Ns) as (A & es & k & B & -> & <- & R & Pt). pose proof R as [I _].
  pose proof H as [Ia _]. pose proof (Cp _ Ia) as Th. pose proof (proj1 (thin_app Q A ((es, k) :: B)) Th) as [Th1 Th2]. inversion Th2 as [|? ? Wk Th3]; subst.
  unfold AoALayout.wid in Wk. simpl in Wk.
  eapply (okb_then (t := true)); [left; eapply rem_plain; [exact T|reflexivity|exact H|exact I]|].
  intros [a' r] (_ & El & H'). cbn [fst snd] in *. eapply (aok_capped N_ok NQ_ok); [exact H'|]. apply thin_app. split; auto. constructor; auto.
  unfold AoALayout.wid. simpl. lia.
Qed.
Lemma g_removes a M i S vs : rep a M -> capped a -> length M <= N -> nth_error M i = Some S -> increasing lt vs ->
  same (m_removesFromSetImpl hi chk tv lt eqb (vcb i) a 0 i vs) (removesFromSetImpl chk tv lt eqb (vcb i) a 0 i vs) (fun r => capped (fst r)).
Proof.
  intros (L & H & F) Cp LN Ns Iv. apply increasing_strong in Iv. pose proof (f2_len F) as LL.
  destruct (f2_at F Ns) as (A & es & k & B & -> & <- & R & Pt). pose proof R as [I _].
  pose proof H as [Ia _]. assert (Sm : small (A ++ (es, k) :: B)) by (split; [congruence|exact (Cp _ Ia)]).
  pose proof (proj1 (thin_app Q A ((es, k) :: B)) (proj2 Sm)) as [Th1 Th2]. inversion Th2 as [|? ? Wk Th3]; subst.
  unfold AoALayout.wid in Wk. simpl in Wk. pose proof (small_Q N_ok NQ_ok Sm) as QH.
  set (es' := pdiff eqb idv es vs).
  pose proof (@rems_plain V W fw chk tv tw lt eqb T (vcb (length A)) (fun _ _ => eq_refl) a A es k B vs H I Iv) as K. cbn zeta in K. fold es' in K.
  assert (length es' <= length es) by (destruct K as (r & _ & E & _); lia).
  refine (@e_removes V V W hi N Q chk tv lt eqb N_ok NQ_ok (vcb (length A)) (vcb (length A)) _ A B (length es + k) es' (A ++ (es, k) :: B) Sm _ (conj Th1 Th3) _ _ a 0 vs (fun r => length es = length es' + snd r) _ _).
  - intros. apply sim_refl.
  - rewrite !app_length. reflexivity.
  - exact Wk.
  - lia.
  - intros r E. lia.
  - eapply oks_mono; [exact K|]. intros r [E [H1 _]]. split; [exact E|]. exact H1.
Qed.

(** ** ArrayOfSets *)
Variable dflt : V.
Lemma g_clear a A es k B : aok a (A ++ (es, k) :: B) -> oks (clearSet chk tv dflt a (length A)) (fun a' => aok a' (A ++ ([], length es + k) :: B)).
Proof.
  intros H. pose proof H as [I [Ev _]].
  unfold clearSet. rewrite (row_check chk I). cbn [bind]. rewrite (row_size chk I). cbn [bind]. rewrite (row_values idv chk I). cbn [bind].
  destruct (lay_row Ev) as [q Mm]. rewrite ids in Mm.
  eapply oks_bind.
  - eapply resize_shrink_ok with (p := flat idv A) (vs := []) (ws := es) (s := repeat LN k ++ flat idv B ++ repeat LN q); simpl; eauto.
  - intros b Mb. simpl in Mb.
    eapply (@AoAProofs3.row_put V W tv tw fw a A es k B [] (length es + k) b q); [exact I| |reflexivity|reflexivity].
    simpl. eapply mem_cast; [exact Mb|]. rewrite repeat_app_add, <- !app_assoc. reflexivity.
Qed.
Notation tstep := (tstep chk tv tw false kind lt eqb dflt).
Notation trun := (trun chk tv tw false kind lt eqb dflt).
Notation m_tstep := (m_tstep hi chk tv tw false kind lt eqb dflt).
Notation m_trun := (m_trun hi chk tv tw false kind lt eqb dflt).

Lemma same_void m f : same m f capped -> same (void m) (void f) (fun r => capped (fst r)).
Proof. intros [-> H]. split; auto. unfold void. eapply then_bind; [exact H|]. intros a' H'. apply then_ok. exact H'. Qed.
Lemma same_flag {Y} (m f : outcome (aoa * Y)) (g : Y -> nat) : same m f (fun r => capped (fst r)) ->
  same ('(a', r) <- m ;; Ok (a', g r)) ('(a', r) <- f ;; Ok (a', g r)) (fun r => capped (fst r)).
Proof. intros [-> H]. split; auto. eapply then_bind; [exact H|]. intros [a' r] H'. apply then_ok. exact H'. Qed.

Lemma card_ext' (S S' : set) n : (forall x, S x <-> S' x) -> cardinal S n -> cardinal S' n.
Proof. intros E (l & Nd & H & Le). exists l. split; auto. split; auto. intros x. rewrite H. apply E. Qed.
Lemma put_in {Y} (l : list Y) i x : In x (put_at l i x).
Proof. unfold put_at. apply in_app_iff. right. left. reflexivity. Qed.
Lemma doubling_ok M i (S S' : set) : N <> 0 -> (forall x, S' x <-> S x) -> halves N Q (put_at M i S) ->
  can_grow (fun n => fit hi (2 * n)) (fun n => 2 * n) S'.
Proof.
  intros HN E [_ Hh] m C. rewrite Forall_forall in Hh. specialize (Hh _ (put_in M i S) m). 
  assert (Cm : cardinal S m) by (eapply card_ext'; eauto). specialize (Hh Cm).
  assert (Q <= hi). { assert (1 * Q <= N * Q) by (apply Nat.mul_le_mono_r; lia). lia. }
  split; [lia|]. split; [apply fit_ok; lia|lia].
Qed.

Lemma t_step c a M M' : rep a M -> capped a -> length M <= N -> tallowed lt c -> set_step lt c M = Some M' ->
  t_asks hi Q c -> halves N Q M' ->
  same (m_tstep c a) (tstep c a) (fun r => capped (fst r)).
Proof.
  intros R Cp LM Al E As Hv. pose proof R as (L & H & F). pose proof (f2_len F) as LL. pose proof H as [Ia _].
  assert (Sm : small L) by (split; [congruence|exact (Cp _ Ia)]).
  assert (HN : forall i S, nth_error M i = Some S -> N <> 0).
  { intros i S Hi. assert (i < length M) by (apply nth_error_Some; congruence). lia. }
  pose proof (fun n => sim_fit_id hi (2 * n)) as Sd.
  destruct c as [n cap|caps|n|n| |cap|i cap|i|i v|i vs|i v|i vs|i|i c|i c]; cbn [set_step AoS.tstep MachineSets.m_tstep t_asks tallowed] in *;
    unfold on_elem in E; try (destruct (nth_error M i) as [S|] eqn:Ns; [|discriminate]); try (injection E as <-); try apply same_void; try apply same_flag.
  - eapply (e_resize chk N_ok NQ_ok); eauto. destruct Hv as [Hv _]. unfold resized_to in Hv. rewrite app_length, firstn_length, repeat_length in Hv. lia.
  - eapply (e_caps chk N_ok NQ_ok); eauto. destruct Hv as [Hv _]. rewrite map_length in Hv. auto.
  - eapply (e_reserve chk N_ok NQ_ok); eauto.
  - split; auto. eapply (e_reserveValues N_ok NQ_ok); eauto.
  - eapply (e_compress chk N_ok NQ_ok); eauto.
  - eapply (e_append chk N_ok NQ_ok); eauto. destruct Hv as [Hv _]. rewrite app_length in Hv. simpl in Hv. lia.
  - destruct (Nat.leb_spec i (length M)) as [Hi|Hi]; [|discriminate]. injection E as <-.
    eapply (e_insertSet chk N_ok NQ_ok); eauto; [|lia]. destruct Hv as [Hv _]. unfold insert_at in Hv. rewrite app_length, firstn_length in Hv. simpl in Hv. rewrite skipn_length in Hv. lia.
  - destruct (Nat.ltb_spec i (length M)) as [Hi|Hi]; [|discriminate]. eapply (e_erase chk N_ok NQ_ok); eauto. lia.
  - eapply (g_insert (mnew := fun n => fit hi (2 * n)) (newCap := fun n => 2 * n)); eauto. eapply doubling_ok; eauto. unfold sum_set. simpl. intros x. intuition.
  - eapply (g_inserts (mnew := fun n => fit hi (2 * n)) (newCap := fun n => 2 * n)); eauto. eapply doubling_ok; eauto. unfold sum_set. simpl. intros x. intuition.
  - split; auto. eapply g_remove; eauto.
  - eapply g_removes; eauto.
  - split; auto. destruct (f2_at F Ns) as (A & es & k & B & -> & <- & Rs & Pt).
    eapply (okb_then (t := true)); [left; apply g_clear; exact H|]. intros a' H'. eapply (aok_capped N_ok NQ_ok); [exact H'|].
    eapply thin_put; [exact (proj2 Sm)|]. destruct Sm as [_ Th]. apply thin_app in Th. destruct Th as [_ Th]. inversion Th as [|? ? Wk _]; subst.
    unfold AoALayout.wid in *. simpl in *. exact Wk.
  - destruct (f2_at F Ns) as (A & es & k & B & -> & <- & Rs & Pt). eapply (e_setcap chk N_ok NQ_ok); eauto.
  - destruct (f2_at F Ns) as (A & es & k & B & -> & <- & Rs & Pt). eapply (e_reserveCap chk N_ok NQ_ok); eauto.
Qed.

Lemma t_run h : forall a M, rep a M -> capped a -> length M <= N -> Forall (tallowed lt) h -> set_run lt h M <> None -> t_within hi N Q lt h M ->
  m_trun h a = trun h a.
Proof.
  induction h as [|c h IH]; intros a M R Cp LM F Nn Wi; cbn [set_run AoS.trun MachineSets.m_trun t_within] in *; auto.
  destruct (set_step lt c M) as [M'|] eqn:E; [|congruence]. destruct Wi as (As & Hv & Wi).
  destruct (t_step R Cp LM (Forall_inv F) E As Hv) as [Es Th]. rewrite Es.
  pose proof (@tstep_ok V W fw chk tv tw lt eqb T dflt c a M R (Forall_inv F)) as St. rewrite E in St.
  destruct St as [([a1 r] & E1 & R1 & _)|[Tf E1]]; rewrite E1; cbn [bind]; auto.
  apply Forall_inv_tail in F. eapply IH; eauto; [|apply Hv]. apply (Th _ E1).
Qed.
End Plain.
