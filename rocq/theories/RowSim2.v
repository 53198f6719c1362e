(** The members of ArrayOfSetsView, SparsityPatternView and CRSMatrixView: the programs follow the functions. *)
From Coq Require Import List Arith ZArith Lia Bool.
From Verif Require Import Base BaseProofs Mem BufferManip AoA Sorted AoS Sparsity CRS Prog ProgProofs ViewProg ViewSim RowSim.
From Verif Require ArrayManip.
Import ListNotations.
Set Implicit Arguments.

Section Sets.
Variables V W : Type.
Variable chk tv : bool.
Variable lt eqb : V -> V -> bool.
Variables n i0 o no ns nv ne : nat.
Notation aoa := (aoa V W).
Notation heap := (heap V W).
Notation part := (part n i0 o no ns nv ne).
Notation wp := (@wp V W (readable i0 o no ns nv ne) (owned i0 o ns nv ne) _).

Lemma sim_v_insertIntoSet a i v a' r h ix (Q : bool -> heap -> Prop) : v_insertIntoSet chk tv lt eqb a i v = Ok (a', r) -> part a h -> ix = i0 + i ->
  (forall h', part a' h' -> Q r h') -> wp (p_v_insertIntoSet W chk tv n lt eqb ix v) h Q.
Proof.
  intros E H Ei HQ. eapply sim_insertImpl; [apply view_inc_sim; exact Ei|apply view_ev_sim|exact E|exact H|exact Ei|exact HQ].
Qed.
Lemma sim_v_insertsIntoSet a i vs a' r h ix (Q : nat -> heap -> Prop) : v_insertsIntoSet chk tv lt eqb a i vs = Ok (a', r) -> part a h -> ix = i0 + i ->
  (forall h', part a' h' -> Q r h') -> wp (p_v_insertsIntoSet W chk tv n lt eqb ix vs) h Q.
Proof.
  intros E H Ei HQ. eapply sim_insertsImpl; [apply view_inc_sim; exact Ei|apply view_ev_sim|exact E|exact H|exact Ei|exact HQ].
Qed.
Lemma sim_removeFromSet a i v a' r h ix (Q : bool -> heap -> Prop) : removeFromSet chk tv lt eqb a i v = Ok (a', r) -> part a h -> ix = i0 + i ->
  (forall h', part a' h' -> Q r h') -> wp (p_removeFromSet W chk tv n lt eqb ix v) h Q.
Proof. intros E H Ei HQ. eapply sim_removeImpl; [apply view_ev_sim|exact E|exact H|exact Ei|exact HQ]. Qed.
Lemma sim_removesFromSet a i vs a' r h ix (Q : nat -> heap -> Prop) : removesFromSet chk tv lt eqb a i vs = Ok (a', r) -> part a h -> ix = i0 + i ->
  (forall h', part a' h' -> Q r h') -> wp (p_removesFromSet W chk tv n lt eqb ix vs) h Q.
Proof. intros E H Ei HQ. eapply sim_removesImpl; [apply view_ev_sim|exact E|exact H|exact Ei|exact HQ]. Qed.
Lemma sim_contains a i v r h ix (Q : bool -> heap -> Prop) : aos_contains chk lt eqb a i v = Ok r -> part a h -> ix = i0 + i ->
  Q r h -> wp (p_contains W chk n lt eqb ix v) h Q.
Proof.
  intros E H Ei HQ. unfold aos_contains in E. unfold p_contains. binv E u Eu. binv E s Es. binv E p Ep. unfold contains in E. binv E k Ek.
  apply wp_bind. eapply sim_check_array; [exact Eu|exact H|exact Ei|].
  apply wp_bind. eapply sim_sizeOfArray; [exact Es|exact H|exact Ei|]. apply wp_bind. eapply sim_getSetValues; [exact Ep|exact H|exact Ei|].
  apply wp_bind.
  assert (H' : on_vals n i0 o no ns nv ne a (vals a) h) by (apply on_vals_at; exact H).
  eapply (@sim_find V W unit (readable i0 o no ns nv ne) (owned i0 o ns nv ne) lt o (fun b (_ : unit) h => on_vals n i0 o no ns nv ne a b h) (fun _ => @vals_read V W n i0 o no ns nv ne a) (vals a) tt);
    [exact Ek|exact H'|reflexivity|].
  unfold p_test. destruct (k =? s); [injection E as <-; exact HQ|]. binv E y Ey. injection E as <-. apply wp_bind.
  eapply (@sim_rd V W (readable i0 o no ns nv ne) (owned i0 o ns nv ne) BVals o _ (@vals_read V W n i0 o no ns nv ne a)); [exact Ey|exact H'|lia|]. exact HQ.
Qed.
End Sets.

Section Pattern.
Variable W : Type.
Variable chk : bool.
Variables n i0 o no ns nv ne : nat.
Variable nc : nat.
Notation aoa := (aoa Z W).
Notation heap := (heap Z W).
Notation part := (part n i0 o no ns nv ne).
Notation wp := (@wp Z W (readable i0 o no ns nv ne) (owned i0 o ns nv ne) _).
Lemma sim_columns (a : aoa) cols x : column_checks chk (mkSP a nc) cols = Ok x -> forall h (Q : unit -> heap -> Prop), Q tt h -> wp (p_column_checks W chk nc cols) h Q.
Proof.
  induction cols as [|c cols IH]; cbn; intros E h Q HQ; auto. binv E u Eu. apply wp_bind. eapply wp_lift; [exact Eu|]. apply IH; auto.
Qed.
Lemma sim_if_columns (a : aoa) cols x h (Q : unit -> heap -> Prop) : (if chk then column_checks chk (mkSP a nc) cols else Ok tt) = Ok x -> Q tt h ->
  wp (if chk then p_column_checks W chk nc cols else Ret tt) h Q.
Proof.
  intros E HQ. pose proof (@sim_columns a cols x) as S. destruct chk; [|exact HQ]. apply S; auto.
Qed.
Ltac strip E H Ei u Eu u2 Eu2 r1 E1 := unfold with_rows in E; binv E u Eu; binv E u2 Eu2; binv E r1 E1; destruct r1; injection E as <- <-;
  apply wp_bind; eapply sim_check_array; [exact Eu|exact H|exact Ei|]; apply wp_bind.
Lemma sim_insertNonZero (a : aoa) i c p' r h ix (Q : bool -> heap -> Prop) : v_insertNonZero chk (mkSP a nc) i c = Ok (p', r) -> part a h -> ix = i0 + i ->
  (forall h', part (rows p') h' -> Q r h') -> wp (p_insertNonZero W chk n nc ix c) h Q.
Proof.
  intros E H Ei HQ. unfold v_insertNonZero in E. strip E H Ei u Eu u2 Eu2 r1 E1. eapply wp_lift; [exact Eu2|]. eapply sim_v_insertIntoSet; [exact E1|exact H|exact Ei|exact HQ].
Qed.
Lemma sim_insertNonZeros (a : aoa) i cs p' r h ix (Q : nat -> heap -> Prop) : v_insertNonZeros chk (mkSP a nc) i cs = Ok (p', r) -> part a h -> ix = i0 + i ->
  (forall h', part (rows p') h' -> Q r h') -> wp (p_insertNonZeros W chk n nc ix cs) h Q.
Proof.
  intros E H Ei HQ. unfold v_insertNonZeros in E. strip E H Ei u Eu u2 Eu2 r1 E1. eapply sim_if_columns; [exact Eu2|].
  eapply sim_v_insertsIntoSet; [exact E1|exact H|exact Ei|exact HQ].
Qed.
Lemma sim_removeNonZero (a : aoa) i c p' r h ix (Q : bool -> heap -> Prop) : removeNonZero chk (mkSP a nc) i c = Ok (p', r) -> part a h -> ix = i0 + i ->
  (forall h', part (rows p') h' -> Q r h') -> wp (p_removeNonZero W chk n nc ix c) h Q.
Proof.
  intros E H Ei HQ. unfold removeNonZero in E. strip E H Ei u Eu u2 Eu2 r1 E1. eapply wp_lift; [exact Eu2|]. eapply sim_removeFromSet; [exact E1|exact H|exact Ei|exact HQ].
Qed.
Lemma sim_removeNonZeros (a : aoa) i cs p' r h ix (Q : nat -> heap -> Prop) : removeNonZeros chk (mkSP a nc) i cs = Ok (p', r) -> part a h -> ix = i0 + i ->
  (forall h', part (rows p') h' -> Q r h') -> wp (p_removeNonZeros W chk n nc ix cs) h Q.
Proof.
  intros E H Ei HQ. unfold removeNonZeros in E. strip E H Ei u Eu u2 Eu2 r1 E1. eapply sim_if_columns; [exact Eu2|].
  eapply sim_removesFromSet; [exact E1|exact H|exact Ei|exact HQ].
Qed.
Lemma sim_sp_empty (a : aoa) i c r h ix (Q : bool -> heap -> Prop) : sp_empty chk (mkSP a nc) i c = Ok r -> part a h -> ix = i0 + i ->
  Q r h -> wp (b <~ p_contains W chk n Z.ltb Z.eqb ix c ;; Ret (negb b)) h Q.
Proof.
  intros E H Ei HQ. unfold sp_empty in E. binv E b Eb. injection E as <-. apply wp_bind. eapply sim_contains; [exact Eb|exact H|exact Ei|]. exact HQ.
Qed.

(** CRSMatrixView *)
Variable tw : bool.
Notation crd a := (@ents_read Z W n i0 o no ns nv ne a).
Notation cwr a := (@ents_write Z W n i0 o no ns nv ne a).
Lemma sim_entry_event (a : aoa) nnz ws e x b b' h ex (Q : unit -> heap -> Prop) : entry_event chk tw nnz ws x b e = Ok b' ->
  on_ents n i0 o no ns nv ne a b h -> ex = o + e -> (forall h', on_ents n i0 o no ns nv ne a b' h' -> Q tt h') -> wp (p_entry_event Z chk tw nnz ws ex x) h Q.
Proof.
  intros E H Ee HQ. destruct x; cbn [entry_event p_entry_event] in *.
  - binv E w Ew. apply wp_bind. eapply wp_lift; [exact Ew|].
    eapply (@sim_place Z W _ _ BEnts o tw _ (crd a) (cwr a)); [exact E|exact H|lia|exact HQ].
  - binv E w Ew. apply wp_bind. eapply wp_lift; [exact Ew|].
    eapply (@sim_emplace Z W _ _ chk BEnts o tw _ (crd a) (cwr a)); [exact E|exact H|exact Ee|exact HQ].
  - binv E b1 E1. binv E w Ew. binv E d Ed. apply wp_bind.
    eapply (@sim_shiftUp Z W _ _ chk BEnts o tw _ (crd a) (cwr a)); [exact E1|exact H|exact Ee|]. intros h1 H1. apply wp_bind. eapply wp_lift; [exact Ew|].
    apply wp_bind. subst ex. eapply wp_lift; [rewrite <- !Nat.add_assoc; rewrite <- Nat.add_assoc in Ed; apply sub_ix_shift; exact Ed|].
    eapply (@sim_place Z W _ _ BEnts o tw _ (crd a) (cwr a)); [exact E|exact H1|lia|exact HQ].
  - eapply (@sim_erase Z W _ _ chk BEnts o tw _ (crd a) (cwr a)); [exact E|exact H|exact Ee|exact HQ].
  - eapply (@sim_shiftDown Z W _ _ chk BEnts o tw _ (crd a) (cwr a)); [exact E|exact H|exact Ee|exact HQ].
Qed.
Lemma crs_ev_sim row nnz c (ws : list W) e : ev_sim n i0 o no ns nv ne (crs_view_cb chk tw row nnz c ws) (p_entry_event Z chk tw nnz ws (o + e)) e.
Proof.
  intros x b [a e'] [a' e''] h Q E [H He] HQ. cbn [cb_ev crs_view_cb crs_ev fst snd] in *. subst e'. binv E b1 E1. injection E as <- <-.
  eapply (@sim_entry_event (set_vals b a)); [exact E1|exact H|reflexivity|]. intros h1 H1. apply HQ. split; auto.
Qed.
Lemma crs_inc_sim row nnz c (ws : list W) ix e : ix = i0 + row -> inc_sim n i0 o no ns nv ne (crs_view_cb chk tw row nnz c ws) (p_crs_inc Z W chk n ix nnz c) e.
Proof.
  intros Ei k b [a e'] b' x' p' h Q E [H He] HQ. cbn [cb_inc crs_view_cb fst snd] in *. binv E u Eu. binv E q E2. injection E as <- <- <-.
  unfold p_crs_inc. apply wp_bind. eapply wp_lift; [exact Eu|]. eapply sim_getSetValues; [exact E2|exact H|exact Ei|]. apply HQ. split; auto.
Qed.
Ltac head E H Ei s Es c Ec e Ee := unfold with_rows, numNonZeros, nonZeroCapacity in E; cbn [rows] in E; binv E s Es; binv E c Ec; binv E e Ee;
  apply wp_bind; eapply sim_sizeOfArray; [exact Es|exact H|exact Ei|]; apply wp_bind; eapply sim_capacityOfArray; [exact Ec|exact H|exact Ei|];
  apply wp_bind; eapply sim_getSetValues; [exact Ee|exact H|exact Ei|].
Lemma sim_crs_insert (a : aoa) i col w p' r h ix (Q : bool -> heap -> Prop) : crs_v_insertNonZero chk tw (mkSP a nc) i col w = Ok (p', r) -> part a h -> ix = i0 + i ->
  (forall h', part (rows p') h' -> Q r h') -> wp (p_crs_insertNonZero chk true tw n Z.ltb Z.eqb ix col w) h Q.
Proof.
  intros E H Ei HQ. unfold crs_v_insertNonZero in E. unfold p_crs_insertNonZero. head E H Ei s Es c Ec e Ee. binv E r1 E1. destruct r1. injection E as <- <-.
  eapply sim_insertImpl; [apply crs_inc_sim; exact Ei|apply crs_ev_sim|exact E1|exact H|exact Ei|exact HQ].
Qed.
Lemma sim_crs_inserts (a : aoa) i cols ws p' r h ix (Q : nat -> heap -> Prop) : crs_v_insertNonZeros chk tw (mkSP a nc) i cols ws = Ok (p', r) -> part a h -> ix = i0 + i ->
  (forall h', part (rows p') h' -> Q r h') -> wp (p_crs_insertNonZeros chk true tw n Z.ltb Z.eqb ix cols ws) h Q.
Proof.
  intros E H Ei HQ. unfold crs_v_insertNonZeros in E. unfold p_crs_insertNonZeros. head E H Ei s Es c Ec e Ee. binv E r1 E1. destruct r1. injection E as <- <-.
  eapply sim_insertsImpl; [apply crs_inc_sim; exact Ei|apply crs_ev_sim|exact E1|exact H|exact Ei|exact HQ].
Qed.
Lemma sim_crs_remove (a : aoa) i col p' r h ix (Q : bool -> heap -> Prop) : crs_removeNonZero chk tw (mkSP a nc) i col = Ok (p', r) -> part a h -> ix = i0 + i ->
  (forall h', part (rows p') h' -> Q r h') -> wp (p_crs_removeNonZero W chk true tw n Z.ltb Z.eqb ix col) h Q.
Proof.
  intros E H Ei HQ. unfold crs_removeNonZero in E. unfold p_crs_removeNonZero. head E H Ei s Es c Ec e Ee. binv E r1 E1. destruct r1. injection E as <- <-.
  eapply sim_removeImpl; [apply crs_ev_sim|exact E1|exact H|exact Ei|exact HQ].
Qed.
Lemma sim_crs_removes (a : aoa) i cols p' r h ix (Q : nat -> heap -> Prop) : crs_removeNonZeros chk tw (mkSP a nc) i cols = Ok (p', r) -> part a h -> ix = i0 + i ->
  (forall h', part (rows p') h' -> Q r h') -> wp (p_crs_removeNonZeros W chk true tw n Z.ltb Z.eqb ix cols) h Q.
Proof.
  intros E H Ei HQ. unfold crs_removeNonZeros, numNonZeros, nonZeroCapacity in E. cbn [rows] in E. unfold p_crs_removeNonZeros. binv E e Ee. binv E s Es. binv E c Ec.
  binv E r1 E1. destruct r1 as [a1 r1]. binv E f Ef. binv E b Eb. injection E as <- <-.
  apply wp_bind. eapply sim_getSetValues; [exact Ee|exact H|exact Ei|]. apply wp_bind. eapply sim_sizeOfArray; [exact Es|exact H|exact Ei|].
  apply wp_bind. eapply sim_capacityOfArray; [exact Ec|exact H|exact Ei|]. apply wp_bind.
  eapply sim_removesImpl; [apply crs_ev_sim|exact E1|exact H|exact Ei|]. intros h1 H1. apply wp_bind.
  eapply wp_lift; [rewrite <- Nat.add_assoc; apply sub_ix_shift; exact Ef|]. apply wp_bind.
  eapply (@sim_destroy Z W _ _ BEnts o tw _ (crd a1) (cwr a1)); [exact Eb|apply on_ents_at; exact H1|reflexivity|]. exact HQ.
Qed.
Lemma sim_entry (a : aoa) i j w h ix (Q : W -> heap -> Prop) : entry chk (mkSP a nc) i j = Ok w -> part a h -> ix = i0 + i -> Q w h -> wp (p_entry Z W chk n ix j) h Q.
Proof.
  intros E H Ei HQ. unfold entry in E. cbn [rows] in E. binv E e Ee. binv E s Es. binv E u Eu. unfold p_entry.
  apply wp_bind. eapply sim_getSetValues; [exact Ee|exact H|exact Ei|]. apply wp_bind. eapply sim_size_; [exact Es|exact H|exact Ei|].
  apply wp_bind. eapply wp_lift; [exact Eu|]. eapply (@sim_rd Z W _ _ BEnts o _ (crd a)); [exact E|apply on_ents_at; exact H|lia|exact HQ].
Qed.
Lemma sim_set_row (a : aoa) i w a' h ix (Q : unit -> heap -> Prop) : set_row chk tw w a i = Ok a' -> part a h -> ix = i0 + i ->
  (forall h', part a' h' -> Q tt h') -> wp (p_set_row Z chk tw n ix w) h Q.
Proof.
  intros E H Ei HQ. unfold set_row in E. binv E s Es. binv E e Ee. binv E b Eb. injection E as <-. unfold p_set_row.
  apply wp_bind. eapply sim_sizeOfArray; [exact Es|exact H|exact Ei|]. apply wp_bind. eapply sim_getSetValues; [exact Ee|exact H|exact Ei|].
  eapply (@sim_up Z W _ _ BEnts (on_ents n i0 o no ns nv ne a) (fun j b => assign tw b (e + j) w)); [|exact Eb|apply on_ents_at; exact H|exact HQ].
  intros j b1 b2 h1 Q1 E1 H1 HQ1. eapply (@sim_store Z W _ _ BEnts o tw _ (crd a) (cwr a)); [exact E1|exact H1|lia|exact HQ1].
Qed.
End Pattern.
