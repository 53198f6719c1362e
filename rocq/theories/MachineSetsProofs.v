(** ArrayOfSets, SparsityPattern and CRSMatrix in machine arithmetic: either the same outcome as in unbounded
    arithmetic or an overflow; and the same outcome while the capacities stay within bounds. *)
From Coq Require Import List Arith ZArith Lia Bool Sorting.Sorted.
From Verif Require Import Base BaseProofs Mem MemProofs ArrayManipProofs BufferManip BufferManipProofs
  Sorted SortedSpec SortedProofs SortedProofs2 SortedProofs3 SortedArraySpec AoA AoASpec AoALayout AoAProofs AoAProofs2 AoAProofs4
  AoS AoSSpec SetsProofs SetsProofs2 Sparsity CRS MachineAoA MachineAoAProofs MachineAoAGen MachineSets.
From Verif Require ArrayManip AoAProofs3.
Import ListNotations.
Set Implicit Arguments.
Unset Strict Implicit.

Ltac sim1 :=
  match goal with
  | |- sim ?m ?m => apply sim_refl
  | H : forall n st, sim (cb_inc _ n st) _ |- sim (cb_inc _ _ _) _ => apply H
  | H : forall n st, sim (cb_ev _ n st) _ |- sim (cb_ev _ _ _) _ => apply H
  | |- sim (bind (fit _ _) _) _ => apply sim_fit
  | |- sim (bind _ _) (bind _ _) => apply sim_bind; [|intros]
  | |- sim (let '(_, _) := ?x in _) (let '(_, _) := ?x in _) => destruct x
  | |- sim (if _ then _ else _) (if _ then _ else _) => apply sim_if
  | |- sim (for_up _ _ _ _) (for_up _ _ _ _) => apply sim_for_up; intros
  | |- sim (match ?x with _ => _ end) (match ?x with _ => _ end) => destruct x
  end.
Ltac sims := repeat sim1; auto using sim_fit_id, sim_refl.

(** * Same or overflow *)
Section Sim.
Variable V X : Type.
Variable chk tv : bool.
Variable lt eqb : V -> V -> bool.
Variable c1 c2 : callbacks V X.
Hypothesis Inc : forall n st, sim (cb_inc c1 n st) (cb_inc c2 n st).
Hypothesis Ev : forall e x, sim (cb_ev c1 e x) (cb_ev c2 e x).

Lemma sim_insert b x p n v : sim (insert chk tv lt eqb c1 b x p n v) (insert chk tv lt eqb c2 b x p n v).
Proof. unfold insert. sims. Qed.
Lemma sim_set_loop vs : forall b x p n, sim (set_loop tv c1 b x p n vs) (set_loop tv c2 b x p n vs).
Proof. induction vs as [|v vs IH]; intros; cbn [set_loop]; sims. Qed.
Lemma sim_insert_loop vs : forall b x p ub n, sim (insert_loop chk tv lt eqb c1 b x p ub n vs) (insert_loop chk tv lt eqb c2 b x p ub n vs).
Proof. induction vs as [|v vs IH]; intros; cbn [insert_loop]; sims. Qed.
Lemma sim_inserts b x p n vs : sim (inserts chk tv lt eqb c1 b x p n vs) (inserts chk tv lt eqb c2 b x p n vs).
Proof. pose proof sim_set_loop. pose proof sim_insert_loop. unfold inserts. sims. Qed.
Lemma sim_remove b x p n v : sim (remove chk tv lt eqb c1 b x p n v) (remove chk tv lt eqb c2 b x p n v).
Proof. unfold remove. sims. Qed.
Lemma sim_remove_loop fuel : forall b x p n m q vs,
  sim (remove_loop chk tv lt eqb c1 fuel b x p n m q vs) (remove_loop chk tv lt eqb c2 fuel b x p n m q vs).
Proof. induction fuel as [|fuel IH]; intros; cbn [remove_loop]; sims. Qed.
Lemma sim_removes b x p n vs : sim (removes chk tv lt eqb c1 b x p n vs) (removes chk tv lt eqb c2 b x p n vs).
Proof. pose proof sim_remove_loop. unfold removes. sims. Qed.
End Sim.

Section SimImpl.
Variable V W : Type.
Variable hi : nat.
Variable chk tv : bool.
Variable lt eqb : V -> V -> bool.
Notation X := (aoa V W * nat)%type.
Implicit Types a : aoa V W.

Lemma sim_insertImpl1 (cb : callbacks V X) a e i v : sim (m_insertIntoSetImpl hi chk tv lt eqb cb a e i v) (insertIntoSetImpl chk tv lt eqb cb a e i v).
Proof. unfold m_insertIntoSetImpl, insertIntoSetImpl. sims. Qed.
Lemma sim_insertsImpl1 (cb : callbacks V X) a e i vs : sim (m_insertsIntoSetImpl hi chk tv lt eqb cb a e i vs) (insertsIntoSetImpl chk tv lt eqb cb a e i vs).
Proof. unfold m_insertsIntoSetImpl, insertsIntoSetImpl. sims. Qed.
Lemma sim_removesImpl1 (cb : callbacks V X) a e i vs : sim (m_removesFromSetImpl hi chk tv lt eqb cb a e i vs) (removesFromSetImpl chk tv lt eqb cb a e i vs).
Proof. unfold m_removesFromSetImpl, removesFromSetImpl. sims. Qed.

Section CB.
Variable c1 c2 : callbacks V X.
Hypothesis Inc : forall n st, sim (cb_inc c1 n st) (cb_inc c2 n st).
Hypothesis Ev : forall e x, sim (cb_ev c1 e x) (cb_ev c2 e x).
Lemma sim_insertImpl2 a e i v : sim (insertIntoSetImpl chk tv lt eqb c1 a e i v) (insertIntoSetImpl chk tv lt eqb c2 a e i v).
Proof. pose proof (sim_insert chk tv lt eqb Inc Ev). unfold insertIntoSetImpl. sims. Qed.
Lemma sim_insertsImpl2 a e i vs : sim (insertsIntoSetImpl chk tv lt eqb c1 a e i vs) (insertsIntoSetImpl chk tv lt eqb c2 a e i vs).
Proof. pose proof (sim_inserts chk tv lt eqb Inc Ev). unfold insertsIntoSetImpl. sims. Qed.
Lemma sim_removeImpl2 a e i v : sim (removeFromSetImpl chk tv lt eqb c1 a e i v) (removeFromSetImpl chk tv lt eqb c2 a e i v).
Proof. pose proof (sim_remove chk tv lt eqb Ev). unfold removeFromSetImpl. sims. Qed.
Lemma sim_removesImpl2 a e i vs : sim (removesFromSetImpl chk tv lt eqb c1 a e i vs) (removesFromSetImpl chk tv lt eqb c2 a e i vs).
Proof. pose proof (sim_removes chk tv lt eqb Ev). unfold removesFromSetImpl. sims. Qed.
End CB.
End SimImpl.
Lemma sim_trans {A} (m f g : outcome A) : sim m f -> sim f g -> sim m g.
Proof. intros [->| ->] H; auto. right. auto. Qed.

Section SimSets.
Variable V W : Type.
Variable hi : nat.
Variable chk tv tw dual : bool.
Variable kind : bkind.
Variable lt eqb : V -> V -> bool.
Variable dflt : V.

Lemma sim_grow_cb (mnew : nat -> outcome nat) newCap i : (forall n, sim (mnew n) (Ok (newCap n))) ->
  forall n st, sim (cb_inc (m_grow_cb V W hi chk tv tw dual kind mnew i) n st) (cb_inc (grow_cb V W chk tv tw dual kind newCap i) n st).
Proof.
  intros Hn n [b [x e]]. cbn [cb_inc m_grow_cb grow_cb].
  apply sim_fit. sims. { apply sim_cap. }
  destruct (Hn (x0 + n)) as [->| ->]; cbn [bind]; [apply sim_setcap|right; auto].
Qed.
Lemma sim_tstep c (a : aoa V W) : sim (m_tstep hi chk tv tw dual kind lt eqb dflt c a) (tstep chk tv tw dual kind lt eqb dflt c a).
Proof.
  pose proof (sim_push (V := V) (W := W) hi chk kind). pose proof (sim_open (V := V) (W := W) hi chk kind).
  pose proof (sim_setcap (V := V) (W := W) hi chk tv tw dual kind). pose proof (sim_cap (V := V) (W := W) hi chk).
  pose proof (fun i => sim_grow_cb (mnew := fun n => fit hi (2 * n)) (newCap := fun n => 2 * n) i (fun n => sim_fit_id hi (2 * n))) as G.
  destruct c; cbn [m_tstep tstep]; unfold void, m_appendSet, appendSet, m_insertSet, insertSet, m_eraseSet, eraseSet, m_eraseArray, eraseArray,
    m_reserveCapacityOfSet, reserveCapacityOfSet; sims; auto using sim_resize, sim_caps, sim_reserve, sim_compress.
  - eapply sim_trans; [apply sim_insertImpl1|]. apply sim_insertImpl2; [apply G|]. intros. apply sim_refl.
  - eapply sim_trans; [apply sim_insertsImpl1|]. apply sim_insertsImpl2; [apply G|]. intros. apply sim_refl.
  - apply sim_removesImpl1.
Qed.
Lemma sim_trun h : forall a : aoa V W, sim (m_trun hi chk tv tw dual kind lt eqb dflt h a) (trun chk tv tw dual kind lt eqb dflt h a).
Proof. pose proof sim_tstep. induction h as [|c h IH]; intros a; cbn [m_trun trun]; sims. Qed.
End SimSets.

Section SimSparsity.
Variable W : Type.
Variable hi : nat.
Variable chk tw dual : bool.
Variable kind : bkind.
Variable cmax : Z.
Lemma sim_setRow (p : pattern W) i c : sim (m_setRowCapacity hi chk tw dual kind p i c) (setRowCapacity chk tw dual kind p i c).
Proof. unfold m_setRowCapacity, setRowCapacity, on_rows. pose proof (sim_setcap (V := Z) (W := W) hi chk true tw dual kind). sims. Qed.
Lemma sim_reserveRow (p : pattern W) i c : sim (m_reserveRow hi chk tw dual kind p i c) (reserveRow chk tw dual kind p i c).
Proof.
  unfold m_reserveRow, reserveRow, nonZeroCapacity. pose proof sim_setRow. pose proof (sim_cap (V := Z) (W := W) hi chk). sims.
Qed.
Lemma sim_sp_resize (p : pattern W) n c k : sim (m_sp_resize hi chk tw dual kind cmax p n c k) (sp_resize chk tw dual kind cmax p n c k).
Proof. unfold m_sp_resize, sp_resize. pose proof (sim_resize (V := Z) (W := W) hi chk true tw dual kind). sims. Qed.
Lemma sim_sp_caps (p : pattern W) c k : sim (m_sp_resizeFromRowCapacities hi chk tw dual kind cmax p c k) (sp_resizeFromRowCapacities chk tw dual kind cmax p c k).
Proof. unfold m_sp_resizeFromRowCapacities, sp_resizeFromRowCapacities. pose proof (sim_caps (V := Z) (W := W) hi chk true tw dual kind). sims. Qed.
Lemma sim_sp_compress (p : pattern W) : sim (m_sp_compress hi chk tw dual p) (sp_compress chk tw dual p).
Proof. unfold m_sp_compress, sp_compress, on_rows. pose proof (sim_compress (V := Z) (W := W) hi chk true tw dual). sims. Qed.

Lemma sim_clamp (p : pattern W) n : sim (k <- fit hi (n * 2) ;; Ok (clamp p k)) (Ok (clamp p (n * 2))).
Proof. apply sim_fit. apply sim_refl. Qed.
Lemma sim_pstep c (p : pattern W) : sim (m_pstep hi chk tw dual kind cmax c p) (pstep chk tw dual kind cmax c p).
Proof.
  pose proof sim_setRow. pose proof (sim_push (V := Z) (W := W) hi chk kind).
  pose proof (fun p i => sim_grow_cb (V := Z) (W := W) hi chk true tw dual kind i (sim_clamp p)) as G.
  destruct c; cbn [m_pstep pstep]; unfold quiet, m_reserveRows, reserveRows, m_appendRow, appendRow, on_rows,
    m_insertNonZero, insertNonZero, m_insertNonZeros, insertNonZeros, m_removeNonZeros, removeNonZeros, with_rows; sims;
    auto using sim_sp_resize, sim_sp_caps, sim_sp_compress, sim_reserveRow, sim_reserve.
  - eapply sim_trans; [apply sim_insertImpl1|]. apply sim_insertImpl2; [apply G|]. intros. apply sim_refl.
  - eapply sim_trans; [apply sim_insertsImpl1|]. apply sim_insertsImpl2; [apply G|]. intros. apply sim_refl.
  - apply sim_removesImpl1.
Qed.
Lemma sim_prun h : forall p : pattern W, sim (m_prun hi chk tw dual kind cmax h p) (prun chk tw dual kind cmax h p).
Proof. pose proof sim_pstep. induction h as [|c h IH]; intros a; cbn [m_prun prun]; sims. Qed.
Lemma sim_new_sp nr nc cap : sim (m_new_sp W hi chk tw dual kind cmax nr nc cap) (new_sp W chk tw dual kind cmax nr nc cap).
Proof. apply sim_sp_resize. Qed.
Lemma sim_total (p : pattern W) : sim (m_totalNonZeros hi chk p) (totalNonZeros chk p).
Proof. unfold m_totalNonZeros, totalNonZeros. sims. Qed.
End SimSparsity.

Section SimCRS.
Variable W : Type.
Variable hi : nat.
Variable chk tw : bool.
Variable kind : bkind.
Variable cmax : Z.
Variable add : W -> W -> W.
Variable zero : W.
Lemma sim_event nnz ws ev (x : aoa Z W * nat) : sim (m_crs_ev hi chk tw nnz ws ev x) (crs_ev chk tw nnz ws ev x).
Proof.
  unfold m_crs_ev. assert (H : sim (m_event hi ev) (Ok tt)) by (destruct ev; cbn [m_event]; repeat apply sim_fit; apply sim_refl).
  destruct H as [->| ->]; [apply sim_refl|right; reflexivity].
Qed.
Lemma sim_crs_inc (p : pattern W) i nnz c ws n st :
  sim (cb_inc (m_crs_cb hi chk tw kind p i nnz c ws) n st) (cb_inc (crs_cb chk tw kind p i nnz c ws) n st).
Proof.
  destruct st as [b [x e]]. cbn [cb_inc m_crs_cb crs_cb]. apply sim_fit, sim_fit. sims. apply sim_setcap.
Qed.
Lemma sim_crs_vinc i nnz c (ws : list W) n st :
  sim (cb_inc (m_crs_view_cb hi chk tw i nnz c ws) n st) (cb_inc (crs_view_cb chk tw i nnz c ws) n st).
Proof.
  destruct st as [b [x e]]. cbn [cb_inc m_crs_view_cb crs_view_cb]. apply sim_fit. sims. unfold check_if. destruct chk; sims.
Qed.
Lemma sim_cstep c (p : pattern W) : sim (m_cstep hi chk tw kind cmax add zero c p) (cstep chk tw kind cmax add zero c p).
Proof.
  pose proof (sim_cap (V := Z) (W := W) hi chk) as HC.
  destruct c; cbn [m_cstep cstep]; unfold quiet,
    m_crs_insertNonZero, crs_insertNonZero, m_crs_insertNonZeros, crs_insertNonZeros, m_crs_removeNonZero, crs_removeNonZero,
    m_crs_removeNonZeros, crs_removeNonZeros, with_rows, nonZeroCapacity; sims;
    auto using sim_sp_resize, sim_sp_caps, sim_sp_compress, sim_reserveRow, sim_setRow.
  - eapply sim_trans; [apply sim_insertImpl1|]. apply sim_insertImpl2; [apply sim_crs_inc|apply sim_event].
  - eapply sim_trans; [apply sim_insertsImpl1|]. apply sim_insertsImpl2; [apply sim_crs_inc|apply sim_event].
  - apply sim_removeImpl2; apply sim_event.
  - eapply sim_trans; [apply sim_removesImpl1|]. apply sim_removesImpl2; apply sim_event.
Qed.
Lemma sim_crun h : forall p : pattern W, sim (m_crun hi chk tw kind cmax add zero h p) (crun chk tw kind cmax add zero h p).
Proof. pose proof sim_cstep. induction h as [|c h IH]; intros a; cbn [m_crun crun]; sims. Qed.
End SimCRS.
