(** Insertions into rows which have the capacity already need no room for twice the row. *)
From Coq Require Import List Arith ZArith Lia Bool Sorting.Sorted.
From Verif Require Import Base BaseProofs Mem MemProofs ArrayManipProofs BufferManip BufferManipProofs
  Sorted SortedSpec SortedProofs SortedProofs2 SortedProofs3 SortedArraySpec AoA AoASpec AoALayout AoAProofs AoAProofs2 AoAProofs4
  AoS AoSSpec SetsProofs SetsProofs2 AoSProofs Sparsity SparsitySpec SparsityProofs CRS CRSSpec CRSProofs CRSProofs2 CRSProofs3 CRSProofs4
  MachineAoA MachineAoAProofs MachineAoAGen MachineSets MachineSetsSpec MachineSetsProofs MachineSetsProofs2 MachineSetsProofs3 MachineSetsProofs4 MachineSetsProofs5.
From Verif Require ArrayManip.
Import ListNotations.
Set Implicit Arguments.
Unset Strict Implicit.

Lemma caps_capped P V W fv fw tv tw dual chk Q (a : aoa V W) (L : list (list P * nat)) : @aok P V W fv fw tv tw dual a L ->
  (forall j c, capacityOfArray chk a j = Ok c -> c <= Q) -> thin Q L.
Proof.
  intros [I _] H. apply Forall_forall. intros x Hx. apply in_split in Hx. destruct Hx as (A & B & ->).
  apply (H (length A)). exact (capacityOf_at chk I (gen_nth A x B)).
Qed.

(** ArrayOfSets and SparsityPattern *)
Section Sets.
Variable V W : Type.
Variable fw : V -> W.
Variable hi N Q : nat.
Variable chk tv tw : bool.
Variable lt eqb : V -> V -> bool.
Hypothesis T : total_order lt eqb.
Hypothesis N_ok : N + 1 <= hi.
Hypothesis NQ_ok : N * Q <= hi.
Notation idv := (fun v : V => v).
Notation rep := (@rep V V W idv fw tv tw false lt).
Notation small L := (length L <= N /\ thin Q L).
Variable mnew : nat -> outcome nat.
Variable newCap : nat -> nat.
Hypothesis Sim : forall n, sim (mnew n) (Ok (newCap n)).
Notation mcb := (m_grow_cb V W hi chk tv tw false BMalloc mnew).
Notation gcb := (grow_cb V W chk tv tw false BMalloc newCap).

Lemma room_inserts (a : aoa V W) M i S vs c m : rep a M -> (forall j c, capacityOfArray chk a j = Ok c -> c <= Q) -> length M <= N ->
  nth_error M i = Some S -> increasing lt vs -> capacityOfArray chk a i = Ok c -> cardinal (sum_set S vs) m -> m <= c ->
  m_insertsIntoSetImpl hi chk tv lt eqb (mcb i) a 0 i vs = insertsIntoSetImpl chk tv lt eqb (gcb i) a 0 i vs.
Proof.
  intros (L & H & F) Cp LN Ns Iv Ec Cm Le. apply increasing_strong in Iv.
  pose proof (f2_len F) as LL. pose proof (caps_capped H Cp) as Th.
  destruct (f2_at F Ns) as (A & es & k & B & -> & <- & R & Pt). pose proof R as [I _].
  pose proof H as [Ia _]. assert (Sm : small (A ++ (es, k) :: B)) by (split; [congruence|exact Th]).
  pose proof (proj1 (thin_app Q A ((es, k) :: B)) (proj2 Sm)) as [Th1 Th2]. inversion Th2 as [|? ? Wk Th3]; subst.
  unfold AoALayout.wid in Wk. simpl in Wk. pose proof (small_Q N_ok NQ_ok Sm) as QH.
  rewrite (row_capacity chk Ia) in Ec. injection Ec as <-.
  set (es' := fold_right (pinsert lt eqb idv) es vs).
  assert (Es : length es' = length es + absent eqb idv es vs) by exact (pinserts_len T I Iv).
  assert (Em : length es' = m).
  { apply (@rowset_len V V idv lt eqb T (es', 0) (sum_set S vs)); auto. eapply rowset_sum; eauto. }
  set (n := absent eqb idv es vs) in *.
  refine (proj1 (@e_inserts V V W idv fw hi N Q chk tv tw false lt eqb N_ok NQ_ok (gcb (length A)) (mcb (length A)) _ _ A B (length es + k) es' (A ++ (es, k) :: B) Sm _ (conj Th1 Th3) _ _ a _ 0 vs (fun r => snd r = n) _ _)).
  - intros. apply sim_grow_cb. exact Sim.
  - intros. apply sim_refl.
  - rewrite !app_length. reflexivity.
  - lia.
  - lia.
  - intros r ->. lia.
  - eapply inss_plain with (cb := mcb (length A)); [exact T|reflexivity|exact H|exact I|exact Iv|].
    cbn zeta. fold n. rewrite (e_grow_inc chk N_ok NQ_ok (mnew := mnew) (newCap := newCap) 0 H Sm); [|lia|intros; lia].
    pose proof (@grow_inc_ok V V W idv fw chk tv tw false newCap a A es k B n 0 H) as G. cbn zeta in G.
    destruct (Nat.ltb_spec (length es + k) (length es + n)); [lia|]. apply G; [discriminate|]. intros; lia.
Qed.
Lemma room_insert (a : aoa V W) M i S v c m : rep a M -> (forall j c, capacityOfArray chk a j = Ok c -> c <= Q) -> length M <= N ->
  nth_error M i = Some S -> capacityOfArray chk a i = Ok c -> cardinal (sum_set S [v]) m -> m <= c ->
  m_insertIntoSetImpl hi chk tv lt eqb (mcb i) a 0 i v = insertIntoSetImpl chk tv lt eqb (gcb i) a 0 i v.
Proof.
  intros (L & H & F) Cp LN Ns Ec Cm Le.
  pose proof (f2_len F) as LL. pose proof (caps_capped H Cp) as Th.
  destruct (f2_at F Ns) as (A & es & k & B & -> & <- & R & Pt). pose proof R as [I _].
  pose proof H as [Ia _]. assert (Sm : small (A ++ (es, k) :: B)) by (split; [congruence|exact Th]).
  pose proof (proj1 (thin_app Q A ((es, k) :: B)) (proj2 Sm)) as [Th1 Th2]. inversion Th2 as [|? ? Wk Th3]; subst.
  unfold AoALayout.wid in Wk. simpl in Wk.
  rewrite (row_capacity chk Ia) in Ec. injection Ec as <-.
  assert (Es : length (pinsert lt eqb idv v es) = length es + (if present eqb idv es v then 0 else 1)) by exact (pinsert_len T v I).
  assert (Em : length (pinsert lt eqb idv v es) = m).
  { apply (@rowset_len V V idv lt eqb T (pinsert lt eqb idv v es, 0) (sum_set S [v])); auto. eapply rowset_sum1; eauto. }
  set (n := if present eqb idv es v then 0 else 1) in *.
  refine (proj1 (@e_insert V V W idv fw hi N Q chk tv tw false lt eqb N_ok NQ_ok (gcb (length A)) (mcb (length A)) _ _ A B (length es + k) (pinsert lt eqb idv v es) (A ++ (es, k) :: B) Sm _ (conj Th1 Th3) _ _ a _ 0 v _ _)).
  - intros. apply sim_grow_cb. exact Sim.
  - intros. apply sim_refl.
  - rewrite !app_length. reflexivity.
  - lia.
  - lia.
  - eapply ins_plain with (cb := mcb (length A)); [exact T|reflexivity|exact H|exact I|].
    cbn zeta. fold n. rewrite (e_grow_inc chk N_ok NQ_ok (mnew := mnew) (newCap := newCap) 0 H Sm); [|lia|intros; lia].
    pose proof (@grow_inc_ok V V W idv fw chk tv tw false newCap a A es k B n 0 H) as G. cbn zeta in G.
    destruct (Nat.ltb_spec (length es + k) (length es + n)); [lia|]. apply G; [discriminate|]. intros; lia.
Qed.
End Sets.

Section CRS.
Variable W : Type.
Variable hi N Q : nat.
Variable chk tw : bool.
Hypothesis N_ok : N + 1 <= hi.
Hypothesis NQ_ok : N * Q <= hi.
Notation fv := (@fst Z W).
Notation fw := (@snd Z W).
Notation mrep := (@mrep W tw).
Notation pins := (pinsert Z.ltb Z.eqb fv).
Notation small L := (length L <= N /\ thin Q L).

Lemma room_crs_inserts (p : pattern W) M nc i S ws c m : mrep p (M, nc) -> (forall j c, nonZeroCapacity chk p j = Ok c -> c <= Q) -> length M <= N -> nc <= Q ->
  nth_error M i = Some S -> increasing Z.ltb (map fst ws) -> Forall (in_range nc) (map fst ws) ->
  nonZeroCapacity chk p i = Ok c -> cardinal (fun e => S e \/ (In e ws /\ ~ has S (fst e))) m -> m <= c ->
  m_crs_insertNonZeros hi chk tw BMalloc p i (map fst ws) (map snd ws) = crs_insertNonZeros chk tw BMalloc p i (map fst ws) (map snd ws).
Proof.
  intros ((L & H & F) & E & G) Cp LN Ln Ns Iw Fw Ec Cm Lm. cbn [fst snd] in *. pose proof (f2_len F) as LL. pose proof (caps_capped H Cp) as Th.
  destruct (f2_at F Ns) as (A & es & k & B & -> & <- & R & Pt). pose proof R as [I _]. pose proof H as [Ia _]. simpl in I.
  assert (Sm : small (A ++ (es, k) :: B)) by (split; [rewrite LL; exact LN|exact Th]).
  pose proof (proj1 (thin_app Q A ((es, k) :: B)) (proj2 Sm)) as [Th1 Th2]. inversion Th2 as [|? ? Wk Th3]; subst. unfold AoALayout.wid in Wk. simpl in Wk.
  pose proof (small_Q N_ok NQ_ok Sm) as QH.
  apply keys_incr in Iw.
  assert (Lw : length ws <= ncols p).
  { rewrite <- (map_length fst). apply (in_range_card (S := fun c => In c (map fst ws))); [rewrite Forall_forall in Fw; auto|].
    exists (map fst ws). split; [exact (pincr_nodup_keys zorder Iw)|]. split; [reflexivity|auto]. }
  unfold nonZeroCapacity in Ec. rewrite (row_capacity chk Ia) in Ec. injection Ec as <-.
  pose proof (@rowset_len (Z * W) Z fv Z.ltb Z.eqb zorder _ _ m (rowset_ins 0 R Iw) Cm) as Em. cbn [fst] in Em.
  pose proof Em as Es. rewrite (@pinserts_length Z (Z * W) Z.ltb Z.eqb fv zorder ws es) in Es by auto.
  set (n := absent Z.eqb fv es ws) in *.
  unfold m_crs_insertNonZeros, crs_insertNonZeros, numNonZeros, nonZeroCapacity. rewrite map_length. rewrite fit_ok by lia. cbn [bind].
  rewrite (row_size chk Ia). cbn [bind]. destruct (e_cap chk N_ok NQ_ok H Sm) as [-> ->]. cbn [bind]. unfold with_rows. f_equal.
  refine (proj1 (@e_inserts (Z * W) Z W fv fw hi N Q chk true tw true Z.ltb Z.eqb N_ok NQ_ok _ _ _ _ A B (length es + k) (fold_right pins es ws) (A ++ (es, k) :: B) Sm _ (conj Th1 Th3) Wk _ (rows p) tw 0 (map fst ws) (fun r => snd r = n) _ _)).
  - intros. apply sim_crs_inc.
  - intros. apply sim_event.
  - rewrite !app_length. reflexivity.
  - lia.
  - intros r ->. lia.
  - eapply (@m_inss_row W hi 0 0 chk tw ltac:(lia) ltac:(lia) ltac:(lia)); [exact H|exact I|exact Iw|lia|lia|reflexivity|]. cbn zeta. fold n.
    pose proof (@owner_inc W chk tw p (map snd ws) (rows p) A es k B n 0 H) as O. unfold grown in O.
    destruct (Nat.ltb_spec (length es + k) (length es + n)) as [X|X] in O; [lia|].
    replace (cb_inc (m_crs_cb hi chk tw BMalloc p (length A) (length es) (length es + k) (map snd ws)) n (vals (rows p), (rows p, 0)))
      with (cb_inc (crs_cb chk tw BMalloc p (length A) (length es) (length es + k) (map snd ws)) n (vals (rows p), (rows p, 0))); [apply O; lia|].
    cbn [cb_inc crs_cb m_crs_cb]. rewrite set_same. rewrite !fit_ok by lia. cbn [bind]. rewrite fit_ok by lia. cbn [bind].
    destruct (Nat.ltb_spec (length es + k) (length es + n)); [lia|reflexivity].
Qed.
End CRS.
