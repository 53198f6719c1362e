(** C80: the arithmetic of ArrayOfSets, SparsityPattern and CRSMatrix in a machine integer type. *)
From Coq Require Import List Arith ZArith Lia Bool.
From Verif Require Import Base Mem BufferManip SortedSpec SortedArraySpec AoA AoASpec AoS AoSSpec Sparsity SparsitySpec CRS CRSSpec
  MachineAoA MachineSets MachineSetsSpec PropAoS PropSparsity PropCRS.
From Verif Require AoALayout AoAProofs AoAProofs2 SetsProofs2 AoSProofs SparsityProofs CRSProofs2 CRSProofs4 MachineAoAProofs MachineAoAGen
  MachineSetsProofs MachineSetsProofs2 MachineSetsProofs3 MachineSetsProofs4 MachineSetsProofs5 MachineSetsProofs6 MachineSetsProofs7.
From Verif Require Import MachineRange.
Import ListNotations.
Set Implicit Arguments.
Unset Strict Implicit.

(** [tdriven], [pdriven] and [cdriven] with INDEX_TYPE of largest value [hi]. *)
Definition m_tdriven {V} (hi : nat) (chk tv : bool) (lt eqb : V -> V -> bool) (dflt : V) (n0 cap0 : nat) (h : list (tcall V)) : outcome (aoa V unit) :=
  a <- m_new_aoa V unit hi chk tv true false BMalloc n0 cap0 ;; m_trun hi chk tv true false BMalloc lt eqb dflt h a.
Definition m_pdriven (hi : nat) (chk : bool) (cmax : Z) (nr nc cap : nat) (h : list pcall) : outcome (pattern unit) :=
  p <- m_new_sp unit hi chk true false BMalloc cmax nr nc cap ;; m_prun hi chk true false BMalloc cmax h p.
Definition m_cdriven {W} (hi : nat) (add : W -> W -> W) (zero : W) (chk tw : bool) (cmax : Z) (nr nc cap : nat) (h : list (ccall W)) : outcome (pattern W) :=
  p <- m_new_sp W hi chk tw true BMalloc cmax nr nc cap ;; m_crun hi chk tw BMalloc cmax add zero h p.

(** Whatever the program: machine arithmetic gives the outcome of unbounded arithmetic, or the program has
    overflowed. *)
Theorem C80_sets_same_or_overflow : forall V hi chk tv (lt eqb : V -> V -> bool) dflt n0 cap0 h,
  m_tdriven hi chk tv lt eqb dflt n0 cap0 h = tdriven chk tv lt eqb dflt n0 cap0 h \/
  m_tdriven hi chk tv lt eqb dflt n0 cap0 h = Fault FOverflow.
Proof.
  intros. unfold m_tdriven, tdriven. apply MachineAoAProofs.sim_bind; [apply MachineAoAProofs.sim_resize|].
  intros a. apply MachineSetsProofs.sim_trun.
Qed.
Print Assumptions C80_sets_same_or_overflow.
Theorem C80_pattern_same_or_overflow : forall hi chk cmax nr nc cap h,
  m_pdriven hi chk cmax nr nc cap h = pdriven chk cmax nr nc cap h \/
  m_pdriven hi chk cmax nr nc cap h = Fault FOverflow.
Proof.
  intros. unfold m_pdriven, pdriven. apply MachineAoAProofs.sim_bind; [apply MachineSetsProofs.sim_new_sp|].
  intros a. apply MachineSetsProofs.sim_prun.
Qed.
Print Assumptions C80_pattern_same_or_overflow.
Theorem C80_matrix_same_or_overflow : forall W hi (add : W -> W -> W) zero chk tw cmax nr nc cap h,
  m_cdriven hi add zero chk tw cmax nr nc cap h = cdriven add zero chk tw cmax nr nc cap h \/
  m_cdriven hi add zero chk tw cmax nr nc cap h = Fault FOverflow.
Proof.
  intros. unfold m_cdriven, cdriven. apply MachineAoAProofs.sim_bind; [apply MachineSetsProofs.sim_new_sp|].
  intros a. apply MachineSetsProofs.sim_crun.
Qed.
Print Assumptions C80_matrix_same_or_overflow.

(** An ArrayOfSets which stays below [N] sets of at most [Q / 2] elements, asked for capacities of at most [Q]:
    nothing overflows if N + 1 and N * Q can be represented. *)
Theorem C80_sets_in_range : forall V hi N Q chk tv (lt eqb : V -> V -> bool) dflt n0 cap0 h M, total_order lt eqb ->
  N + 1 <= hi -> N * Q <= hi -> n0 <= N -> cap0 <= Q ->
  Forall (tallowed lt) h -> set_run lt h (repeat none n0) = Some M -> t_within hi N Q lt h (repeat none n0) ->
  m_tdriven hi chk tv lt eqb dflt n0 cap0 h = tdriven chk tv lt eqb dflt n0 cap0 h /\
  (tv = true -> exists a, m_tdriven hi chk tv lt eqb dflt n0 cap0 h = Ok a /\ shows chk lt eqb a M).
Proof.
  intros V hi N Q chk tv lt eqb dflt n0 cap0 h M T NO NQ Hn Hc F HM Wi.
  set (idv := fun v : V => v). set (fw := fun _ : V => tt).
  assert (E : m_tdriven hi chk tv lt eqb dflt n0 cap0 h = tdriven chk tv lt eqb dflt n0 cap0 h).
  { unfold m_tdriven, tdriven. rewrite (@MachineAoAGen.m_new_exact V V unit idv fw hi chk tv true false n0 cap0) by lia.
    assert (n0 * cap0 <= N * Q) by (apply Nat.mul_le_mono; auto). destruct (Nat.leb_spec (n0 * cap0) hi); [|lia].
    destruct (@SetsProofs2.new_rep V V unit idv fw chk tv true false lt n0 cap0) as (a & Ea & R).
    assert (Cp : @MachineSetsProofs2.capped V V unit Q a).
    { pose proof (@AoAProofs2.resize_ok V V unit idv fw chk tv true false (null_aoa V unit BMalloc) [] n0 cap0 (@AoAProofs.null_pok V V unit idv fw tv true false)) as K.
      refine (MachineSetsProofs2.okb_then (R := @MachineSetsProofs2.capped V V unit Q) K _ Ea).
      intros b Hb. eapply (MachineSetsProofs2.aok_capped NO NQ); [exact Hb|]. unfold AoAProofs2.resized. simpl. rewrite firstn_nil. simpl.
      apply Forall_forall. intros x Hx. apply repeat_spec in Hx. subst. exact Hc. }
    rewrite Ea. cbn [bind]. eapply MachineSetsProofs3.t_run; eauto.
    - rewrite repeat_length. auto.
    - congruence. }
  split; [exact E|]. intros ->. rewrite E. exact (@C28_vector_of_sets V lt eqb dflt chk n0 cap0 h M T F HM).
Qed.
Print Assumptions C80_sets_in_range.

(** A SparsityPattern which stays below [N] rows and [Q] columns: nothing overflows, the total number of
    non-zeros included, if N + 1, N * Q and 2 * Q can be represented. *)
Theorem C80_pattern_in_range : forall hi N Q chk cmax nr nc cap h st,
  N + 1 <= hi -> N * Q <= hi -> 2 * Q <= hi -> nr <= N -> nc <= Q -> cap <= Q -> (Z.of_nat nc - 1 <= cmax)%Z ->
  pvalid cmax h (repeat none nr, nc) -> pat_run cmax h (repeat none nr, nc) = Some st -> p_within hi N Q cmax h (repeat none nr, nc) ->
  m_pdriven hi chk cmax nr nc cap h = pdriven chk cmax nr nc cap h /\
  exists p, m_pdriven hi chk cmax nr nc cap h = Ok p /\ pshows chk p st /\
    (inside N Q st -> m_totalNonZeros hi chk p = totalNonZeros chk p).
Proof.
  intros hi N Q chk cmax nr nc cap h st NO NQ Q2 Hr Hc Hk HC Pv Hs Wi.
  assert (HC' : (cmax <? Z.of_nat nc - 1)%Z = false) by (apply Z.ltb_ge; auto).
  assert (E : m_pdriven hi chk cmax nr nc cap h = pdriven chk cmax nr nc cap h).
  { unfold m_pdriven, pdriven.
    destruct (@SparsityProofs.new_prep unit tt chk true cmax nr nc cap HC') as (p & Ep & R).
    destruct (@MachineSetsProofs4.p_new unit tt hi N Q chk true cmax NO NQ nr nc cap HC' Hr Hk) as [E Cp].
    rewrite E, Ep. cbn [bind].
    refine (proj1 (@MachineSetsProofs4.p_run unit tt hi N Q chk true cmax NO NQ Q2 h p _ R (Cp p Ep) _ Pv _ Wi)).
    - split; cbn [fst snd]; [rewrite repeat_length|]; auto.
    - congruence. }
  split; [exact E|]. rewrite E. pose proof (@pdriven_rep chk cmax nr nc cap h HC Pv) as D. rewrite Hs in D. destruct D as (p & Ep & R).
  exists p. split; [exact Ep|]. split; [exact (prep_shows chk R)|]. intros In.
  exact (@MachineSetsProofs4.p_total unit tt hi N Q chk true NO NQ p st R In).
Qed.
Print Assumptions C80_pattern_in_range.

(** The same for a CRSMatrix; [tw]: T is trivial. *)
Theorem C80_matrix_in_range : forall W hi N Q (add : W -> W -> W) zero chk tw cmax nr nc cap h st,
  N + 1 <= hi -> N * Q <= hi -> 2 * Q <= hi -> nr <= N -> nc <= Q -> cap <= Q -> (Z.of_nat nc - 1 <= cmax)%Z ->
  cvalid add zero tw cmax h (repeat none nr, nc) -> mat_run add zero cmax h (repeat none nr, nc) = Some st ->
  c_within N Q add zero cmax h (repeat none nr, nc) ->
  m_cdriven hi add zero chk tw cmax nr nc cap h = cdriven add zero chk tw cmax nr nc cap h /\
  (tw = true -> exists p, m_cdriven hi add zero chk tw cmax nr nc cap h = Ok p /\ cshows chk p st /\
    (inside N Q st -> m_totalNonZeros hi chk p = totalNonZeros chk p)).
Proof.
  intros W hi N Q add zero chk tw cmax nr nc cap h st NO NQ Q2 Hr Hc Hk HC Pv Hs Wi.
  assert (HC' : (cmax <? Z.of_nat nc - 1)%Z = false) by (apply Z.ltb_ge; auto).
  assert (E : m_cdriven hi add zero chk tw cmax nr nc cap h = cdriven add zero chk tw cmax nr nc cap h).
  { unfold m_cdriven, cdriven.
    destruct (@CRSProofs4.new_mrep W chk tw cmax nr nc cap HC') as (p & Ep & R).
    destruct (@MachineSetsProofs5.c_new W hi N Q chk tw cmax NO NQ nr nc cap Hr Hk) as [E Cp].
    rewrite E, Ep. cbn [bind].
    refine (@MachineSetsProofs5.c_run W hi N Q chk tw cmax add zero NO NQ Q2 h p _ R (Cp p Ep) _ Pv _ Wi).
    - split; cbn [fst snd]; [rewrite repeat_length|]; auto.
    - congruence. }
  split; [exact E|]. intros ->. rewrite E.
  pose proof (@cdriven_rep W add zero chk true cmax nr nc cap h HC Pv) as D. rewrite Hs in D. destruct D as [(p & Ep & R)|[D _]]; [|discriminate].
  exists p. split; [exact Ep|]. split; [exact (mrep_shows chk R)|]. intros In.
  exact (@MachineSetsProofs5.c_total W hi N Q chk true NO NQ p st R In).
Qed.
Print Assumptions C80_matrix_in_range.

(** No result escapes the checks: whatever the program, if it ends normally the numbers of rows, the offsets and
    the sizes it leaves behind can be represented. *)
Theorem C80_sets_representable : forall V hi chk tv (lt eqb : V -> V -> bool) dflt n0 cap0 h a,
  m_tdriven hi chk tv lt eqb dflt n0 cap0 h = Ok a -> representable hi a.
Proof.
  intros V hi chk tv lt eqb dflt n0 cap0 h a E. apply rng_representable.
  refine (MachineSetsProofs2.then_bind (Q := rng hi) _ _ E); [apply r_resize, r_null|]. intros x Hx. apply r_trun. exact Hx.
Qed.
Print Assumptions C80_sets_representable.
Theorem C80_pattern_representable : forall hi chk cmax nr nc cap h p,
  m_pdriven hi chk cmax nr nc cap h = Ok p -> representable hi (rows p) /\ forall n, m_totalNonZeros hi chk p = Ok n -> n <= hi.
Proof.
  intros hi chk cmax nr nc cap h p E. split; [|exact (@r_total unit hi chk p)]. apply rng_representable.
  refine (MachineSetsProofs2.then_bind (Q := fun p => rng hi (rows p)) (R := fun p => rng hi (rows p)) _ _ E); [apply q_new|]. intros x Hx. apply r_prun. exact Hx.
Qed.
Print Assumptions C80_pattern_representable.
Theorem C80_matrix_representable : forall W hi (add : W -> W -> W) zero chk tw cmax nr nc cap h p,
  m_cdriven hi add zero chk tw cmax nr nc cap h = Ok p -> representable hi (rows p) /\ forall n, m_totalNonZeros hi chk p = Ok n -> n <= hi.
Proof.
  intros W hi add zero chk tw cmax nr nc cap h p E. split; [|exact (@r_total W hi chk p)]. apply rng_representable.
  refine (MachineSetsProofs2.then_bind (Q := fun p => rng hi (rows p)) (R := fun p => rng hi (rows p)) _ _ E); [apply q_new|]. intros x Hx. apply r_crun. exact Hx.
Qed.
Print Assumptions C80_matrix_representable.

(** What the number of columns does not bound. A row at its capacity is grown by asking for twice its new size;
    the product is an INDEX_TYPE. If it does not fit the program overflows, even if the capacity which would
    have been allocated, the number of columns, fits. *)
Section Full.
Lemma app_run {A S} (step : A -> S -> outcome (S * nat)) (run : list A -> S -> outcome S)
  (R0 : forall s, run [] s = Ok s) (R1 : forall c h s, run (c :: h) s = ('(s', _) <- step c s ;; run h s')) h c s s' :
  run h s = Ok s' -> run (h ++ [c]) s = ('(s', _) <- step c s' ;; Ok s').
Proof.
  revert s. induction h as [|d h IH]; intros s; cbn [app].
  - rewrite R0. intros E. injection E as <-. rewrite R1. destruct (step c s) as [[t r]| |]; cbn [bind]; auto.
  - rewrite !R1. destruct (step d s) as [[t r]| |]; cbn [bind]; try discriminate. apply IH.
Qed.
End Full.

Theorem C80_full_set_overflows : forall V hi chk tv (lt eqb : V -> V -> bool) dflt n0 cap0 h M a i S n v, total_order lt eqb ->
  Forall (tallowed lt) h -> set_run lt h (repeat none n0) = Some M ->
  m_tdriven hi chk tv lt eqb dflt n0 cap0 h = Ok a ->
  nth_error M i = Some S -> cardinal S n -> capacityOfArray chk a i = Ok n -> ~ S v -> hi < 2 * (n + 1) ->
  m_tdriven hi chk tv lt eqb dflt n0 cap0 (h ++ [TInsert i v]) = Fault FOverflow.
Proof.
  intros V hi chk tv lt eqb dflt n0 cap0 h M a i S n v T F HM E Ns C Ec Nv Hh.
  assert (R : @SetsProofs2.rep V V unit (fun v => v) (fun _ => tt) tv true false lt a M).
  { pose proof (tdriven_rep T chk tv dflt n0 cap0 F) as D. rewrite HM in D.
    destruct (C80_sets_same_or_overflow hi chk tv lt eqb dflt n0 cap0 h) as [E2|E2]; rewrite E in E2; [|discriminate].
    destruct D as [(a' & Ea & R)|[_ Ea]]; rewrite <- E2 in Ea; [injection Ea as <-; exact R|discriminate]. }
  unfold m_tdriven in *. destruct (m_new_aoa V unit hi chk tv true false BMalloc n0 cap0) as [a0| |]; try discriminate. cbn [bind] in *.
  rewrite (app_run (step := m_tstep hi chk tv true false BMalloc lt eqb dflt) (fun _ => eq_refl) (fun _ _ _ => eq_refl) _ E).
  cbn [m_tstep]. unfold m_insertIntoSet, m_aos_cb.
  rewrite (MachineSetsProofs6.set_over hi T (mnew := fun newNNZ => fit hi (2 * newNNZ)) R Ns C Ec Nv); [reflexivity|].
  apply MachineAoAGen.fit_bad. exact Hh.
Qed.
Print Assumptions C80_full_set_overflows.
Theorem C80_full_row_overflows : forall hi chk cmax nr nc cap h st p i S n col, (Z.of_nat nc - 1 <= cmax)%Z ->
  pvalid cmax h (repeat none nr, nc) -> pat_run cmax h (repeat none nr, nc) = Some st ->
  m_pdriven hi chk cmax nr nc cap h = Ok p ->
  nth_error (fst st) i = Some S -> cardinal S n -> nonZeroCapacity chk p i = Ok n -> ~ S col -> hi < 2 * (n + 1) ->
  m_pdriven hi chk cmax nr nc cap (h ++ [PInsert i col]) = Fault FOverflow.
Proof.
  intros hi chk cmax nr nc cap h [M c0] p i S n col HC Pv Hs E Ns C Ec Nv Hh. cbn [fst] in Ns.
  assert (R : @SetsProofs2.rep Z Z unit (fun v => v) (fun _ => tt) true true false Z.ltb (rows p) M).
  { pose proof (@pdriven_rep chk cmax nr nc cap h HC Pv) as D. rewrite Hs in D. destruct D as (p' & Ep & R & _).
    destruct (C80_pattern_same_or_overflow hi chk cmax nr nc cap h) as [E2|E2]; rewrite E in E2; [|discriminate].
    rewrite <- E2 in Ep. injection Ep as <-. exact R. }
  unfold m_pdriven in *. destruct (m_new_sp unit hi chk true false BMalloc cmax nr nc cap) as [p0| |]; try discriminate. cbn [bind] in *.
  rewrite (app_run (step := m_pstep hi chk true false BMalloc cmax) (fun _ => eq_refl) (fun _ _ _ => eq_refl) _ E).
  cbn [m_pstep]. unfold m_insertNonZero, m_sp_cb, with_rows.
  rewrite (MachineSetsProofs6.set_over hi SparsityProofs.zorder (mnew := fun newNNZ => k <- fit hi (newNNZ * 2) ;; Ok (clamp p k)) R Ns C Ec Nv); [reflexivity|].
  rewrite MachineAoAGen.fit_bad by lia. reflexivity.
Qed.
Print Assumptions C80_full_row_overflows.
Theorem C80_full_matrix_row_overflows : forall W hi (add : W -> W -> W) zero chk tw cmax nr nc cap h st p i S n col w, (Z.of_nat nc - 1 <= cmax)%Z ->
  cvalid add zero tw cmax h (repeat none nr, nc) -> mat_run add zero cmax h (repeat none nr, nc) = Some st ->
  m_cdriven hi add zero chk tw cmax nr nc cap h = Ok p ->
  nth_error (fst st) i = Some S -> cardinal S n -> nonZeroCapacity chk p i = Ok n -> ~ has S col -> hi < 2 * (n + 1) ->
  m_cdriven hi add zero chk tw cmax nr nc cap (h ++ [CInsert i col w]) = Fault FOverflow.
Proof.
  intros W hi add zero chk tw cmax nr nc cap h st p i S n col w HC Pv Hs E Ns C Ec Nv Hh.
  assert (R : @CRSProofs2.mrep W tw p st).
  { pose proof (@cdriven_rep W add zero chk tw cmax nr nc cap h HC Pv) as D. rewrite Hs in D.
    destruct (C80_matrix_same_or_overflow hi add zero chk tw cmax nr nc cap h) as [E2|E2]; rewrite E in E2; [|discriminate].
    destruct D as [(p' & Ep & R)|[_ Ep]]; rewrite <- E2 in Ep; [injection Ep as <-; exact R|discriminate]. }
  unfold m_cdriven in *. destruct (m_new_sp W hi chk tw true BMalloc cmax nr nc cap) as [p0| |]; try discriminate. cbn [bind] in *.
  rewrite (app_run (step := m_cstep hi chk tw BMalloc cmax add zero) (fun _ => eq_refl) (fun _ _ _ => eq_refl) _ E).
  cbn [m_cstep]. rewrite (MachineSetsProofs6.crs_over w R Ns C Ec Nv Hh). reflexivity.
Qed.
Print Assumptions C80_full_matrix_row_overflows.

(** Inserting into a set or row which has the capacity for the result needs no room for twice its size: with [N]
    rows of capacities up to [Q], N + 1 and N * Q in range are enough. *)
Theorem C80_reserved_set_in_range : forall V hi N Q chk tv (lt eqb : V -> V -> bool) dflt n0 cap0 h M a i S vs c m, total_order lt eqb ->
  Forall (tallowed lt) h -> set_run lt h (repeat none n0) = Some M -> m_tdriven hi chk tv lt eqb dflt n0 cap0 h = Ok a ->
  N + 1 <= hi -> N * Q <= hi -> length M <= N -> (forall j c, capacityOfArray chk a j = Ok c -> c <= Q) ->
  nth_error M i = Some S -> increasing lt vs -> capacityOfArray chk a i = Ok c -> cardinal (fun x => In x vs \/ S x) m -> m <= c ->
  m_tstep hi chk tv true false BMalloc lt eqb dflt (TInserts i vs) a = tstep chk tv true false BMalloc lt eqb dflt (TInserts i vs) a.
Proof.
  intros V hi N Q chk tv lt eqb dflt n0 cap0 h M a i S vs c m T F HM E NO NQ LM Hq Ns Iv Ec Cm Le.
  assert (R : @SetsProofs2.rep V V unit (fun v => v) (fun _ => tt) tv true false lt a M).
  { pose proof (tdriven_rep T chk tv dflt n0 cap0 F) as D. rewrite HM in D.
    destruct (C80_sets_same_or_overflow hi chk tv lt eqb dflt n0 cap0 h) as [E2|E2]; rewrite E in E2; [|discriminate].
    destruct D as [(a' & Ea & R)|[_ Ea]]; rewrite <- E2 in Ea; [injection Ea as <-; exact R|discriminate]. }
  cbn [m_tstep tstep]. unfold m_insertsIntoSet, m_aos_cb, insertsIntoSet, aos_cb.
  eapply (@MachineSetsProofs7.room_inserts V unit (fun _ => tt) hi N Q chk tv true lt eqb T NO NQ); eauto.
  intros n. unfold fit. destruct (_ <=? _); [left|right]; reflexivity.
Qed.
Print Assumptions C80_reserved_set_in_range.
Theorem C80_reserved_row_in_range : forall hi N Q chk cmax nr nc cap h st p i S cols c m, (Z.of_nat nc - 1 <= cmax)%Z ->
  pvalid cmax h (repeat none nr, nc) -> pat_run cmax h (repeat none nr, nc) = Some st -> m_pdriven hi chk cmax nr nc cap h = Ok p ->
  N + 1 <= hi -> N * Q <= hi -> length (fst st) <= N -> (forall j c, nonZeroCapacity chk p j = Ok c -> c <= Q) ->
  nth_error (fst st) i = Some S -> increasing Z.ltb cols -> nonZeroCapacity chk p i = Ok c -> cardinal (fun x => In x cols \/ S x) m -> m <= c ->
  m_pstep hi chk true false BMalloc cmax (PInserts i cols) p = pstep chk true false BMalloc cmax (PInserts i cols) p.
Proof.
  intros hi N Q chk cmax nr nc cap h [M c0] p i S cols c m HC Pv Hs E NO NQ LM Hq Ns Iv Ec Cm Le. cbn [fst] in *.
  assert (R : @SetsProofs2.rep Z Z unit (fun v => v) (fun _ => tt) true true false Z.ltb (rows p) M).
  { pose proof (@pdriven_rep chk cmax nr nc cap h HC Pv) as D. rewrite Hs in D. destruct D as (p' & Ep & R & _).
    destruct (C80_pattern_same_or_overflow hi chk cmax nr nc cap h) as [E2|E2]; rewrite E in E2; [|discriminate].
    rewrite <- E2 in Ep. injection Ep as <-. exact R. }
  cbn [m_pstep pstep]. unfold m_insertNonZeros, insertNonZeros, m_sp_cb, sp_cb, with_rows. f_equal.
  eapply (@MachineSetsProofs7.room_inserts Z unit (fun _ => tt) hi N Q chk true true Z.ltb Z.eqb SparsityProofs.zorder NO NQ); eauto.
  intros n. apply MachineSetsProofs.sim_clamp.
Qed.
Print Assumptions C80_reserved_row_in_range.
Theorem C80_reserved_matrix_row_in_range : forall W hi N Q (add : W -> W -> W) zero chk tw cmax nr nc cap h st p i S cws c m, (Z.of_nat nc - 1 <= cmax)%Z ->
  cvalid add zero tw cmax h (repeat none nr, nc) -> mat_run add zero cmax h (repeat none nr, nc) = Some st -> m_cdriven hi add zero chk tw cmax nr nc cap h = Ok p ->
  N + 1 <= hi -> N * Q <= hi -> inside N Q st -> (forall j c, nonZeroCapacity chk p j = Ok c -> c <= Q) ->
  nth_error (fst st) i = Some S -> callowed tw (CInserts i cws) st -> nonZeroCapacity chk p i = Ok c ->
  cardinal (fun e => S e \/ (In e cws /\ ~ has S (fst e))) m -> m <= c ->
  m_cstep hi chk tw BMalloc cmax add zero (CInserts i cws) p = cstep chk tw BMalloc cmax add zero (CInserts i cws) p.
Proof.
  intros W hi N Q add zero chk tw cmax nr nc cap h [M c0] p i S cws c m HC Pv Hs E NO NQ [LM Ln] Hq Ns [Iv Iw] Ec Cm Le. cbn [fst snd] in *.
  assert (R : @CRSProofs2.mrep W tw p (M, c0)).
  { pose proof (@cdriven_rep W add zero chk tw cmax nr nc cap h HC Pv) as D. rewrite Hs in D.
    destruct (C80_matrix_same_or_overflow hi add zero chk tw cmax nr nc cap h) as [E2|E2]; rewrite E in E2; [|discriminate].
    destruct D as [(p' & Ep & R)|[_ Ep]]; rewrite <- E2 in Ep; [injection Ep as <-; exact R|discriminate]. }
  cbn [m_cstep cstep]. eapply (@MachineSetsProofs7.room_crs_inserts W hi N Q chk tw NO NQ); eauto.
Qed.
Print Assumptions C80_reserved_matrix_row_in_range.

(** So it is false that capacities of at most the number of columns, with N * columns in range, are enough:
    one row of four columns with INDEX_TYPE up to 5. Reserving the columns first avoids it. *)
Theorem C80_columns_in_range_refuted : exists hi nc h h', nc <= hi /\ 2 <= hi /\
  p_within hi 1 nc 100 h (repeat none 1, nc) /\ pat_run 100 h (repeat none 1, nc) <> None /\
  m_pdriven hi true 100 1 nc 2 h = Fault FOverflow /\
  exists p, m_pdriven hi true 100 1 nc 2 (h' :: h) = Ok p /\ totalNonZeros true p = Ok 3.
Proof.
  exists 5, 4, [PInsert 0 0%Z; PInsert 0 1%Z; PInsert 0 2%Z], (PReserveRow 0 4).
  split; [lia|]. split; [lia|]. split; [cbn; repeat split; cbn; lia|]. split; [cbn; discriminate|].
  split; [vm_compute; reflexivity|]. eexists. split; [vm_compute; reflexivity|reflexivity].
Qed.
Print Assumptions C80_columns_in_range_refuted.

(** The bounds hold for the histories of C30_case and C32_case, and for a history of an ArrayOfSets, with small
    index types. *)
Lemma two_elements (S : nat -> Prop) (l : list nat) n : (forall x, S x -> In x l) -> cardinal S n -> n <= length l.
Proof. intros H (k & Nd & E & <-). apply NoDup_incl_length; auto. intros x Hx. apply H, E, Hx. Qed.
Example C80_case :
  p_within 18 3 6 100 hp (repeat none 2, 5) /\ (exists p, m_pdriven 18 true 100 2 5 1 hp = Ok p /\ m_totalNonZeros 18 true p = Ok 8) /\
  c_within 2 5 Z.add 0%Z 100 hc (repeat none 2, 5) /\ (exists p, m_cdriven 10 Z.add 0%Z true true 100 2 5 1 hc = Ok p) /\
  t_within 8 2 4 Nat.ltb [TInsert 0 5; TInserts 1 [2; 3]; TInsert 0 1] (repeat none 2) /\
  (exists a, m_tdriven 8 true true Nat.ltb Nat.eqb 0 2 1 [TInsert 0 5; TInserts 1 [2; 3]; TInsert 0 1] = Ok a) /\
  m_tdriven 8 true true Nat.ltb Nat.eqb 0 2 1 [TInsert 0 5; TInserts 1 [2; 3]; TInserts 0 [1; 2; 3; 4]] = Fault FOverflow.
Proof.
  split; [cbn; repeat split; cbn; try lia; repeat constructor; cbn; lia|].
  split; [eexists; split; vm_compute; reflexivity|].
  split; [cbn; repeat split; cbn; try lia; repeat constructor; cbn; lia|].
  split; [eexists; vm_compute; reflexivity|].
  split; [|split; [eexists; vm_compute; reflexivity|vm_compute; reflexivity]].
  assert (D : forall (S1 S2 : nat -> Prop), (forall x, S1 x -> In x [1; 5]) -> (forall x, S2 x -> In x [2; 3]) -> halves 2 4 [S1; S2]).
  { intros S1 S2 H1 H2. split; [cbn; lia|]. constructor; [|constructor; [|constructor]]; intros n C.
    - pose proof (two_elements H1 C). simpl in *. lia.
    - pose proof (two_elements H2 C). simpl in *. lia. }
  cbn. do 6 (split; [try exact I; apply D; intros x Hx; unfold none in Hx; simpl; intuition|]). exact I.
Qed.
(** Three columns into a row of capacity 4 with INDEX_TYPE up to 5; without the capacity it overflows. *)
Example C80_reserved_case :
  (p <- m_pdriven 5 true 100 1 4 4 [PInserts 0 [0; 1; 2]%Z] ;; totalNonZeros true p) = Ok 3 /\
  m_pdriven 5 true 100 1 4 2 [PInserts 0 [0; 1; 2]%Z] = Fault FOverflow.
Proof. vm_compute. auto. Qed.
