(** Growing a full row asks for twice its new size, in INDEX_TYPE: when that does not fit, the insertion
    overflows, whatever the number of columns. *)
From Coq Require Import List Arith ZArith Lia Bool Sorting.Sorted.
From Verif Require Import Base BaseProofs Mem MemProofs ArrayManipProofs BufferManip BufferManipProofs
  Sorted SortedSpec SortedProofs SortedProofs2 SortedProofs3 SortedArraySpec AoA AoASpec AoALayout AoAProofs AoAProofs2 AoAProofs4
  AoS AoSSpec SetsProofs SetsProofs2 AoSProofs Sparsity SparsitySpec SparsityProofs CRS CRSSpec CRSProofs CRSProofs2 CRSProofs3 CRSProofs4
  MachineAoA MachineAoAProofs MachineAoAGen MachineSets MachineSetsSpec MachineSetsProofs MachineSetsProofs2.
From Verif Require ArrayManip AoAProofs3.
Import ListNotations.
Set Implicit Arguments.
Unset Strict Implicit.

Section Over.
Variable P V W : Type.
Variable fv : P -> V.
Variable fw : P -> W.
Variable hi : nat.
Variable chk tv tw dual : bool.
Variable lt eqb : V -> V -> bool.
Hypothesis T : total_order lt eqb.
Notation kind := BMalloc.
Notation aoa := (aoa V W).
Notation X := (aoa * nat)%type.
Notation aok := (@aok P V W fv fw tv tw dual).
Notation pincr l := (StronglySorted (fun x y => lt (fv x) (fv y) = true) l).
Implicit Types a : aoa.

(** The first effect of an insertion is incrementSize. *)
Lemma ins_over (cb : callbacks V X) a A es k B v e0 : aok a (A ++ (es, k) :: B) -> pincr es -> present eqb fv es v = false ->
  cb_inc cb 1 (vals a, (a, e0)) = Fault FOverflow ->
  m_insertIntoSetImpl hi chk tv lt eqb cb a e0 (length A) v = Fault FOverflow.
Proof.
  intros H I Pr Hinc. pose proof H as [Ia [Ev _]]. unfold m_insertIntoSetImpl.
  rewrite (row_check chk Ia). cbn [bind]. rewrite (row_size chk Ia). cbn [bind]. rewrite (row_values fv chk Ia). cbn [bind].
  destruct (lay_row Ev) as [q M]. unfold insert.
  destruct (psplit T v I) as (A1 & B1 & -> & LA & GB).
  erewrite (insert_pos_ok T M I LA GB) by (auto using app_length). cbn [bind].
  erewrite (check_present T M I LA GB) by (auto using app_length). cbn [bind].
  rewrite Pr, Hinc. reflexivity.
Qed.

Section Grow.
Variable mnew : nat -> outcome nat.
Notation mcb := (m_grow_cb V W hi chk tv tw dual kind mnew).
Lemma grow_over a A es B e0 : aok a (A ++ (es, 0) :: B) -> mnew (length es + 1) = Fault FOverflow ->
  cb_inc (mcb (length A)) 1 (vals a, (a, e0)) = Fault FOverflow.
Proof.
  intros H Hm. pose proof H as [I _]. cbn [cb_inc m_grow_cb].
  assert (Ea : set_vals (vals a) a = a) by (destruct a; reflexivity). rewrite Ea.
  destruct (le_lt_dec 1 hi) as [H1|H1]; [rewrite fit_ok by auto|rewrite fit_bad by auto; reflexivity]. cbn [bind].
  rewrite (row_size chk I). cbn [bind].
  destruct (le_lt_dec (length es + 1) hi) as [H2|H2]; [rewrite fit_ok by auto|rewrite fit_bad by auto; reflexivity]. cbn [bind].
  destruct (sim_cap hi chk a (length A)) as [E|E]; rewrite E; [|reflexivity].
  rewrite (capacityOf_at chk I (gen_nth A (es, 0) B)). cbn [bind]. unfold AoALayout.wid. cbn [fst snd].
  destruct (Nat.ltb_spec (length es + 0) (length es + 1)); [|lia]. rewrite Hm. reflexivity.
Qed.
End Grow.
End Over.

(** A row at its capacity *)
Lemma at_cap P V W fv fw tv tw dual chk (a : aoa V W) A (es : list P) k B n :
  @aok P V W fv fw tv tw dual a (A ++ (es, k) :: B) -> capacityOfArray chk a (length A) = Ok n -> length es = n -> k = 0.
Proof.
  intros [I _] E L. rewrite (capacityOf_at chk I (gen_nth A (es, k) B)) in E. unfold AoALayout.wid in E. cbn [fst snd] in E. injection E as E. lia.
Qed.

Section Sets.
Variable V W : Type.
Variable fw : V -> W.
Variable hi : nat.
Variable chk tv tw : bool.
Variable lt eqb : V -> V -> bool.
Hypothesis T : total_order lt eqb.
Notation idv := (fun v : V => v).
Notation rep := (@rep V V W idv fw tv tw false lt).

Lemma set_over mnew (a : aoa V W) M i S n v : rep a M -> nth_error M i = Some S -> cardinal S n -> capacityOfArray chk a i = Ok n ->
  ~ S v -> mnew (n + 1) = Fault FOverflow ->
  m_insertIntoSetImpl hi chk tv lt eqb (m_grow_cb V W hi chk tv tw false BMalloc mnew i) a 0 i v = Fault FOverflow.
Proof.
  intros (L & H & F) Ns C E Nv Hm. destruct (f2_at F Ns) as (A & es & k & B & -> & <- & R & _). pose proof R as [I Rs].
  pose proof (@rowset_len V V idv lt eqb T (es, k) S n R C) as Ln. cbn [fst] in Ln. pose proof (at_cap H E Ln) as ->. subst n.
  eapply (ins_over (fv := idv)); [exact T|exact H|exact I| |].
  - apply (present_false idv T). intros (x & Hx & <-). apply Nv. apply Rs. exact Hx.
  - eapply grow_over; [exact H|exact Hm].
Qed.
End Sets.

Section CRS.
Variable W : Type.
Variable hi : nat.
Variable chk tw : bool.
Notation fv := (@fst Z W).
Notation fw := (@snd Z W).
Notation mrep := (@mrep W tw).

Lemma crs_over (p : pattern W) st i S n col w : mrep p st -> nth_error (fst st) i = Some S -> cardinal S n ->
  nonZeroCapacity chk p i = Ok n -> ~ has S col -> hi < 2 * (n + 1) ->
  m_crs_insertNonZero hi chk tw BMalloc p i col w = Fault FOverflow.
Proof.
  destruct st as [M nc]. cbn [fst]. intros ((L & H & F) & _ & _) Ns C E Nv Hh. cbn [fst snd] in *. unfold nonZeroCapacity in E.
  destruct (f2_at F Ns) as (A & es & k & B & -> & <- & R & _). pose proof R as [I Rs].
  pose proof (@rowset_len (Z * W) Z fv Z.ltb Z.eqb zorder (es, k) S n R C) as Ln. cbn [fst] in Ln. pose proof (at_cap H E Ln) as ->. subst n.
  pose proof H as [Ia _]. unfold m_crs_insertNonZero, numNonZeros. rewrite (row_size chk Ia). cbn [bind].
  destruct (sim_cap hi chk (rows p) (length A)) as [E2|E2]; rewrite E2; [|reflexivity]. rewrite E. cbn [bind].
  unfold with_rows. assert (Z0 : m_insertIntoSetImpl hi chk true Z.ltb Z.eqb (m_crs_cb hi chk tw BMalloc p (length A) (length es) (length es) [w]) (rows p) 0 (length A) col = Fault FOverflow); [|rewrite Z0; reflexivity].
  eapply (ins_over (fv := fv)); [exact zorder|exact H|exact I| |].
  - apply (present_false fv zorder). intros ([c w'] & Hx & <-). apply Nv. exists w'. apply Rs. exact Hx.
  - cbn [cb_inc m_crs_cb]. destruct (le_lt_dec 1 hi) as [H1|H1]; [rewrite fit_ok by auto|rewrite fit_bad by auto; reflexivity]. cbn [bind].
    destruct (le_lt_dec (length es + 1) hi) as [H2|H2]; [rewrite fit_ok by auto|rewrite fit_bad by auto; reflexivity]. cbn [bind].
    destruct (Nat.ltb_spec (length es) (length es + 1)); [|lia]. rewrite fit_bad by auto. reflexivity.
Qed.
End CRS.
