(** The destructor of an ArrayOfArrays with one damaged inner array. *)
From Coq Require Import List Arith ZArith Lia Bool.
From Verif Require Import Base BaseProofs Mem MemProofs ArrayManipProofs BufferManip BufferManipProofs AoA AoASpec AoALayout AoAProofs AoAProofs2 AoAProofs3.
From Verif Require Import Throw ThrowProofs ThrowAoA ThrowAoASpec.
From Verif Require ArrayManip AoAProofs4 PropAoA.
Import ListNotations.
Set Implicit Arguments.
Unset Strict Implicit.

Lemma for_up_plus {St} (f : nat -> St -> outcome St) m : forall n i s,
  for_up (m + n) f i s = (s' <- for_up m f i s ;; for_up n f (i + m) s').
Proof.
  induction m as [|m IH]; intros n i s; cbn [for_up plus bind].
  - rewrite Nat.add_0_r. reflexivity.
  - destruct (f i s) as [s1| |]; cbn [bind]; auto. rewrite IH. replace (i + 1 + m) with (i + S m) by lia. reflexivity.
Qed.

(** An outcome that is specified, or the one fault. *)
Definition xokb {A X} (t : bool) (x : xout A X) (Q : nat -> A -> Prop) (T : why -> X -> Prop) : Prop :=
  xspec x Q T \/ (t = false /\ x = XFault FMove).

Section Dtor.
Variable V : Type.
Variable chk : bool.
Notation aoa := (aoa V unit).
Notation row := (list V * nat)%type.
Notation rows := (list row).
Notation idv := (fun v : V => v).
Notation fu := (fun _ : V => tt).
Notation aok := (@aok V V unit idv fu false true false).
Notation iok := (@iok V V unit).
Notation mem := (@mem V false).
Notation LVs := (map (@LV V)).
Notation dtor := (aoa_dtor chk false true false BMalloc).
Implicit Types a t : aoa.
Implicit Types A B : rows.
Implicit Types C p s : list (lcell V).

Lemma destroy_hits_at (b : buf V) u p s m o : mem b (u ++ p ++ LN :: s) -> o = length u -> Forall live p -> length p < m ->
  ArrayManip.destroy false b o m = Fault FDestroy.
Proof.
  intros M -> L H. unfold ArrayManip.destroy. replace m with (length p + S (m - length p - 1)) by lia. rewrite for_up_plus.
  destruct (@destroy_ok V false b u p (LN :: s) (length u) (length p) M eq_refl eq_refl L) as (b1 & E1 & M1).
  unfold ArrayManip.destroy in E1. rewrite E1. cbn [bind for_up plus]. unfold destroy1 at 1.
  rewrite app_assoc in M1. apply mem_split in M1. destruct M1 as (bp & bc & bs & -> & _ & R & _ & Lb).
  rewrite aget_mid by (rewrite Lb; len). cbn [bind]. destruct R as [R|R]; [discriminate|]. subst bc. reflexivity.
Qed.

(** Row [r] of capacity [length r + k] as far as the integers go; its places hold [C]. *)
Definition damaged t A (r : list V) (k : nat) B C : Prop :=
  iok t (A ++ (r, k) :: B) /\ length C = length r + k /\
  exists q, mem (vals t) (flat idv A ++ C ++ flat idv B ++ repeat LN q).

Lemma aok_damaged t A r k B : aok t (A ++ (r, k) :: B) -> damaged t A r k B (LVs r ++ repeat LN k).
Proof.
  intros H. destruct (aok_row H) as [q M]. split; [exact (proj1 H)|]. split; [len|]. exists q.
  eapply mem_cast; [exact M|]. lapp. auto.
Qed.
Lemma damaged_vals t A r k B C b q : damaged t A r k B C -> forall C', length C' = length C ->
  mem b (flat idv A ++ C' ++ flat idv B ++ repeat LN q) -> damaged (set_vals b t) A r k B C'.
Proof. intros (I & L & _) C' L' M. split; [exact I|]. split; [lia|]. exists q. exact M. Qed.

Lemma rows_total A r k B : length (A ++ (r, k) :: B) = length A + (1 + length B).
Proof. len. Qed.

(** destroyValues over the rows before the damaged one *)
Lemma before_ok t A r k B C q : iok t (A ++ (r, k) :: B) -> forall b, mem b (flat idv A ++ C ++ flat idv B ++ repeat LN q) ->
  oks (for_up (length A) (fun i b => o <- offset t i ;; s <- sizeOfArray chk t i ;; ArrayManip.destroy false b o s) 0 b)
    (fun b' => mem b' (repeat LN (total A) ++ C ++ flat idv B ++ repeat LN q)).
Proof.
  intros I b M. eapply (@rows_destroy V V idv false A b [] (C ++ flat idv B ++ repeat LN q) 0).
  - exact M.
  - intros j x N b0. cbn beta. assert (j < length A) by (apply nth_error_Some; congruence). cbn [plus].
    rewrite (offset_at I) by len. cbn [bind].
    rewrite (sizeOf_at chk (r := x) I) by (rewrite nth_error_app1 by lia; exact N). cbn [bind].
    f_equal. rewrite firstn_app. replace (j - length A) with 0 by lia. rewrite firstn_O, app_nil_r. reflexivity.
Qed.

Lemma dtor_unfold t L : iok t L ->
  dtor t = (b <- for_up (length L) (fun i b => o <- offset t i ;; s <- sizeOfArray chk t i ;; ArrayManip.destroy false b o s) 0 (vals t) ;;
            _ <- release false b ;; Ok tt).
Proof.
  intros I. pose proof I as (N & O & Z). unfold aoa_dtor, aoa_free, destroyValues. rewrite N.
  rewrite (check_insert_at chk I) by lia. cbn [bind]. rewrite (check_insert_at chk I) by lia. cbn [bind].
  rewrite Nat.sub_0_r. unfold each.
  destruct (for_up (length L) _ 0 (vals t)) as [b| |]; cbn [bind]; auto. cbn [szs offs].
  unfold free_buffer at 1 2. rewrite (holds_nil_cap (holds_forget (xs := []) Z)). cbn [bind].
  rewrite (holds_nil_cap (holds_forget (xs := []) O)). cbn [bind]. cbn [vals]. unfold free_buffer.
  destruct (release false b) as [[]| |]; reflexivity.
Qed.

Lemma dtor_corrupt t A r k B p s : damaged t A r k B (p ++ LN :: s) -> Forall live p -> length p < length r ->
  dtor t = Fault FDestroy.
Proof.
  intros (I & L & q & M) F H. rewrite (dtor_unfold I), rows_total, for_up_plus.
  destruct (before_ok I M) as (b1 & E1 & M1). rewrite E1. cbn [bind plus for_up].
  rewrite (row_off I). cbn [bind]. rewrite (row_size chk I). cbn [bind].
  rewrite (@destroy_hits_at b1 (repeat LN (total A)) p (s ++ flat idv B ++ repeat LN q) (length r)); auto.
  - eapply mem_cast; [exact M1|]. lapp. auto.
  - rewrite flat_length, repeat_length. reflexivity.
Qed.

Lemma dtor_row t A r k B C q p s : iok t (A ++ (r, k) :: B) -> C = p ++ s -> length C = length r + k -> length p = length r -> Forall live p ->
  forall b, mem b (flat idv A ++ C ++ flat idv B ++ repeat LN q) ->
  oks (for_up (length A + (1 + length B)) (fun i b => o <- offset t i ;; s <- sizeOfArray chk t i ;; ArrayManip.destroy false b o s) 0 b)
    (fun b' => mem b' (repeat LN (total A + length r) ++ s ++ repeat LN (total B) ++ repeat LN q)).
Proof.
  intros I -> L Lp F b M. rewrite for_up_plus. destruct (before_ok I M) as (b1 & E1 & M1). rewrite E1. cbn [bind].
  rewrite for_up_plus. cbn [plus for_up]. rewrite (row_off I). cbn [bind]. rewrite (row_size chk I). cbn [bind].
  destruct (@destroy_ok V false b1 (repeat LN (total A)) p (s ++ flat idv B ++ repeat LN q) (length (flat idv A)) (length r))
    as (b2 & E2 & M2); auto.
  - eapply mem_cast; [exact M1|]. lapp. auto.
  - rewrite flat_length, repeat_length. reflexivity.
  - rewrite E2. cbn [bind]. eapply oks_mono.
    + eapply (@rows_destroy V V idv false B b2 (repeat LN (total A + length r) ++ s) (repeat LN q) (length A + 1)).
      * eapply mem_cast; [exact M2|]. rewrite repeat_app_add. lapp. auto.
      * intros j x N b0. cbn beta. assert (j < length B) by (apply nth_error_Some; congruence).
        rewrite (offset_at I) by len. cbn [bind].
        rewrite (sizeOf_at chk (r := x) I).
        2:{ rewrite nth_error_app2 by lia. replace (length A + 1 + j - length A) with (S j) by lia. exact N. }
        cbn [bind]. f_equal. rewrite firstn_app, firstn_all2 by lia. replace (length A + 1 + j - length A) with (S j) by lia.
        rewrite total_app. cbn [firstn total]. unfold wid. cbn [fst snd]. rewrite app_length in L. rewrite app_length, repeat_length. lia.
    + intros b' M'. eapply mem_cast; [exact M'|]. lapp. auto.
Qed.

Lemma dtor_forgets t A r k B p s1 v s2 : damaged t A r k B (p ++ s1 ++ LV v :: s2) -> Forall live p -> length p = length r ->
  dtor t = Fault FLeak.
Proof.
  intros (I & L & q & M) F H. rewrite (dtor_unfold I), rows_total.
  destruct (dtor_row I eq_refl L H F M) as (b1 & E1 & M1). rewrite E1. cbn [bind]. unfold release. cbn [orb].
  replace (forallb (@is_raw V) b1) with false; [reflexivity|]. symmetry.
  assert (M2 : mem b1 ((repeat LN (total A + length r) ++ s1) ++ LV v :: s2 ++ repeat LN (total B) ++ repeat LN q)).
  { eapply mem_cast; [exact M1|]. lapp. auto. }
  apply mem_split in M2. destruct M2 as (bp & bc & bs & -> & _ & R & _). simpl in R. subst bc.
  rewrite forallb_app. simpl. rewrite andb_false_r. auto.
Qed.

(** What can be read. *)
Lemma damaged_size t A r k B C i x : damaged t A r k B C -> nth_error (A ++ (r, k) :: B) i = Some x -> sizeOfArray chk t i = Ok (length (fst x)).
Proof. intros (I & _) N. exact (sizeOf_at chk I N). Qed.

Lemma iok_check2 t L i x j : iok t L -> nth_error L i = Some x -> j < length (fst x) -> slot chk t i j = Ok (total (firstn i L) + j).
Proof.
  intros I N H. assert (i < length L) by (apply nth_error_Some; congruence). unfold slot, check_array2.
  assert (E : (if chk then _ <- error_if (numArrays t <=? i) ;; s <- size_ t i ;; error_if (s <=? j) else Ok tt) = Ok tt).
  { destruct chk; auto. pose proof I as (NA & _). rewrite NA. rewrite error_if_ok by (apply Nat.leb_gt; lia). cbn [bind].
    rewrite (size_at I N). cbn [bind]. apply error_if_ok, Nat.leb_gt. auto. }
  rewrite E. cbn [bind]. rewrite (offset_at I) by lia. reflexivity.
Qed.

Lemma flat_nth L i (x : row) j v : nth_error L i = Some x -> nth_error (fst x) j = Some v ->
  nth_error (flat idv L) (total (firstn i L) + j) = Some (LV v).
Proof.
  intros N J. apply nth_error_split in N. destruct N as (A & B & -> & <-). rewrite firstn_app_exact by auto.
  rewrite flat_app. rewrite nth_error_app2 by (rewrite flat_length; lia). rewrite flat_length.
  replace (total A + j - total A) with j by lia. destruct x as [r k]. simpl in *. unfold cells at 1. simpl. rewrite map_id.
  assert (j < length r) by (apply nth_error_Some; congruence).
  rewrite nth_error_app1 by len. rewrite nth_error_app1 by len. apply map_nth_error. exact J.
Qed.

Lemma damaged_other t A r k B C i x j v : damaged t A r k B C -> i <> length A ->
  nth_error (A ++ (r, k) :: B) i = Some x -> nth_error (fst x) j = Some v -> aoa_at chk t i j = Ok v.
Proof.
  intros (I & L & q & M) Hi N J. assert (Hj : j < length (fst x)) by (apply nth_error_Some; congruence).
  unfold aoa_at. rewrite (iok_check2 I N Hj). cbn [bind]. eapply rd_nth; [exact M|].
  destruct (Nat.lt_ge_cases i (length A)) as [Lt|Ge].
  - rewrite nth_error_app1 in N by lia. rewrite firstn_app. replace (i - length A) with 0 by lia. rewrite firstn_O, app_nil_r.
    pose proof (flat_nth N J) as F. rewrite nth_error_app1; [exact F|]. apply nth_error_Some. congruence.
  - rewrite nth_error_app2 in N by lia. destruct (i - length A) as [|m] eqn:Em; [lia|]. cbn [nth_error] in N.
    rewrite firstn_app, firstn_all2, Em by lia. cbn [firstn]. rewrite total_app. cbn [total]. unfold wid. cbn [fst snd].
    rewrite nth_error_app2 by (rewrite flat_length; lia). rewrite nth_error_app2 by (rewrite flat_length; lia).
    pose proof (flat_nth N J) as F.
    replace (total A + (length r + k + total (firstn m B)) + j - length (flat idv A) - length C) with (total (firstn m B) + j)
      by (rewrite flat_length; lia).
    rewrite nth_error_app1; [exact F|]. apply nth_error_Some. congruence.
Qed.
Lemma damaged_own t A r k B C j v : damaged t A r k B C -> j < length r -> nth_error C j = Some (LV v) -> aoa_at chk t (length A) j = Ok v.
Proof.
  intros (I & L & q & M) Hj J. unfold aoa_at. rewrite (iok_check2 I (row_nth A (r, k) B) Hj). cbn [bind]. eapply rd_nth; [exact M|].
  rewrite firstn_app_exact by auto. rewrite nth_error_app2 by (rewrite flat_length; lia). rewrite flat_length.
  replace (total A + j - total A) with j by lia. rewrite nth_error_app1; [exact J|]. apply nth_error_Some. congruence.
Qed.

Lemma damaged_displays t A r k B r' s : damaged t A r k B (LVs r' ++ s) -> length r' = length r ->
  PropAoA.displays chk t (map fst A ++ r' :: map fst B).
Proof.
  intros D L. pose proof D as (I & _). pose proof I as (N & _).
  assert (G : forall i y, nth_error (map fst A ++ r' :: map fst B) i = Some y ->
     (i = length A /\ y = r') \/ (i <> length A /\ exists x, nth_error (A ++ (r, k) :: B) i = Some x /\ fst x = y)).
  { intros i y Hy. destruct (Nat.eq_dec i (length A)) as [->|Hi].
    - left. split; auto. rewrite nth_error_app2, map_length, Nat.sub_diag in Hy by (rewrite map_length; lia). simpl in Hy. congruence.
    - right. split; auto. destruct (Nat.lt_ge_cases i (length A)).
      + rewrite nth_error_app1 in Hy by (rewrite map_length; lia). rewrite nth_error_map in Hy.
        destruct (nth_error A i) as [x|] eqn:E; [|discriminate]. simpl in Hy. injection Hy as <-. exists x. rewrite nth_error_app1 by lia. auto.
      + rewrite nth_error_app2 in Hy by (rewrite map_length; lia). rewrite map_length in Hy.
        destruct (i - length A) as [|m] eqn:Em; [lia|]. cbn [nth_error] in Hy. rewrite nth_error_map in Hy.
        destruct (nth_error B m) as [x|] eqn:E; [|discriminate]. simpl in Hy. injection Hy as <-. exists x.
        rewrite nth_error_app2, Em by lia. auto. }
  split; [rewrite N; len|]. split.
  - intros i y Hy. destruct (G _ _ Hy) as [(-> & ->)|(Hi & x & Nx & <-)].
    + rewrite L. exact (row_size chk I).
    + exact (damaged_size D Nx).
  - intros i y j v Hy J. destruct (G _ _ Hy) as [(-> & ->)|(Hi & x & Nx & <-)].
    + assert (j < length r') by (apply nth_error_Some; congruence). eapply damaged_own; [exact D|lia|].
      rewrite nth_error_app1 by len. apply map_nth_error. exact J.
    + exact (damaged_other D Hi Nx J).
Qed.
End Dtor.
