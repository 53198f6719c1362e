(** Programs on an ArrayOfArrays which follow the protocol do in two memory spaces what they do on a vector of vectors. *)
From Coq Require Import List Arith ZArith Lia Bool.
From Verif Require Import Base BaseProofs Mem MemProofs BufferManip AoA AoASpec AoALayout AoAProofs AoAProofs2 AoAProofs3 AoAProofs4 OwnRangeProofs AoACopyProofs
  Chai Spaces SpacesSpec SpacesProofs SpacesAoA SpacesAoASpec.
From Verif Require ArrayManip.
Import ListNotations.
Set Implicit Arguments.
Unset Strict Implicit.

(** ** Writing does not change the number of slots *)
Section Len.
Variable V : Type.
Variable t : bool.
Notation buf := (buf V).
Implicit Types b : buf.
Lemma aset_len A (l l' : list A) i x : aset l i x = Ok l' -> length l' = length l.
Proof. unfold aset. destruct (i <? length l); [|discriminate]. intros [= <-]. apply upd_length. Qed.
Lemma place_len b b' i c : Mem.place t b i c = Ok b' -> length b' = length b.
Proof. unfold Mem.place. intros E. st E. destruct x; [|destruct t; [|discriminate]|]; eapply aset_len; eauto. Qed.
Lemma store_len b b' i c : Mem.store t b i c = Ok b' -> length b' = length b.
Proof. unfold Mem.store. intros E. st E. destruct x; [destruct t; [|discriminate]| |]; eapply aset_len; eauto. Qed.
Lemma take_len b b' i c : take t b i = Ok (c, b') -> length b' = length b.
Proof.
  unfold take. intros E. st E. destruct t; [congruence|]. destruct x; [discriminate| |congruence]. st E. injection E as _ <-. eapply aset_len; eauto.
Qed.
Lemma mconstruct_len b b' d s : mconstruct t b d s = Ok b' -> length b' = length b.
Proof. unfold mconstruct. intros E. st E. destruct x as [c b1]. apply take_len in Heqo. apply place_len in E. congruence. Qed.
Lemma massign_len b b' d s : massign t b d s = Ok b' -> length b' = length b.
Proof. unfold massign. intros E. st E. destruct x as [c b1]. apply take_len in Heqo. apply store_len in E. congruence. Qed.
Lemma destroy_len b b' p n : ArrayManip.destroy t b p n = Ok b' -> length b' = length b.
Proof. intros E. eapply (@for_up_inv _ (fun x => length x = length b)); [|exact E|reflexivity]. cbv beta. intros x a c _ H <-. eapply destroy1_length; eauto. Qed.
Variable chk : bool.
Lemma shiftUp_len b b' p s i n : ArrayManip.shiftUp chk t b p s i n = Ok b' -> length b' = length b.
Proof.
  unfold ArrayManip.shiftUp. intros E. st E. destruct (n =? 0); [congruence|]. st E. apply destroy_len in E. rewrite E.
  eapply (@for_down_inv _ (fun x => length x = length b)); [|exact Heqo0|reflexivity]. cbv beta. intros y a c _ H <-. eapply mconstruct_len; eauto.
Qed.
Lemma shiftDown_len b b' p s i n : ArrayManip.shiftDown chk t b p s i n = Ok b' -> length b' = length b.
Proof.
  unfold ArrayManip.shiftDown. intros E. st E. destruct (n =? 0); [congruence|].
  eapply (@for_up_inv _ (fun x => length x = length b)); [|exact E|reflexivity]. cbv beta. intros y a c _ H <-. st H. eapply massign_len; eauto.
Qed.
Lemma erase_len b b' p s i n : ArrayManip.erase chk t b p s i n = Ok b' -> length b' = length b.
Proof.
  unfold ArrayManip.erase. intros E. destruct (n =? 0); [congruence|]. st E. st E. st E. st E. apply destroy_len in E. apply shiftDown_len in Heqo1. congruence.
Qed.
Lemma append_len vs : forall b b' p s i k, ArrayManip.append_loop t b p s i vs = Ok (b', k) -> length b' = length b.
Proof.
  induction vs as [|v vs IH]; intros b b' p s i k E; cbn [ArrayManip.append_loop] in E; [congruence|]. st E. apply IH in E. apply place_len in Heqo. congruence.
Qed.
Lemma copy_len vs : forall b b' p, ArrayManip.uninitializedCopy t vs b p = Ok b' -> length b' = length b.
Proof.
  induction vs as [|v vs IH]; intros b b' p E; cbn [ArrayManip.uninitializedCopy] in E; [congruence|]. st E. apply IH in E. apply place_len in Heqo. congruence.
Qed.
Lemma emplace_len b b' p s i v : ArrayManip.emplace chk t b p s i v = Ok b' -> length b' = length b.
Proof. unfold ArrayManip.emplace. intros E. st E. st E. apply place_len in E. apply shiftUp_len in Heqo0. congruence. Qed.
Lemma insert_len b b' p s i vs : ArrayManip.insert chk t b p s i vs = Ok b' -> length b' = length b.
Proof. unfold ArrayManip.insert. intros E. st E. st E. apply copy_len in E. apply shiftUp_len in Heqo0. congruence. Qed.
Lemma umove_len n : forall i (d s d' s' : buf) pd ps, for_up n (fun i ds => let '(d, s) := ds in
                '(c, s') <- take t (s : buf) (ps + i) ;;
                d' <- Mem.place t (d : buf) (pd + i) c ;;
                Ok (d', s')) i (d, s) = Ok (d', s') -> length d' = length d.
Proof.
  induction n as [|n IH]; intros i d s d' s' pd ps E; cbn [for_up] in E; [congruence|]. st E. destruct x as [d1 s1]. apply IH in E. st Heqo. destruct x as [c s2]. st Heqo.
  injection Heqo as <- <-. apply place_len in Heqo1. congruence.
Qed.
Lemma reserve_same b b' s n : BufferManip.reserve chk t BMalloc b s n = Ok b' -> b' = b \/ length b' <> length b.
Proof.
  unfold BufferManip.reserve, BufferManip.setCapacity, BufferManip.reallocate, BufferManip.capacity. intros E. st E. destruct (Nat.ltb_spec (length b) n); [|left; congruence].
  right. st E. destruct x0 as [d s1]. st E. st E. injection E as <-. unfold ArrayManip.uninitializedMove in Heqo0. apply umove_len in Heqo0. rewrite Heqo0, repeat_length. lia.
Qed.
End Len.

Section AoAS.
Variable V : Type.
Variable chk : bool.
Variable dflt : V.
Notation aoa := (aoa V unit).
Notation contents := (contents (nat + V)).
Notation fu := (fun _ : V => tt).
Notation arep := (@arep V unit true true fu).
Notation astep := (@astep V unit chk true true false BMalloc dflt).
Implicit Types a : aoa.

(** ** What a slot without defined value holds does not matter *)
Definition canon a : aoa := mkAoA (numArrays a) (map (@get_index V) (map (@put_index V) (offs a))) (map (@get_index V) (map (@put_index V) (szs a)))
  (map (@get_value V) (map (@put_value V) (vals a))) [].
Lemma loaded_stored a : loaded (numArrays a) (stored a) = Ok (canon a).
Proof. reflexivity. Qed.
Lemma mem_index (b : buf nat) l : mem true b l -> mem true (map (@get_index V) (map (@put_index V) b)) l.
Proof.
  intros H. induction H as [|c x b l Hc H IH]; cbn; constructor; [|exact IH]. destruct x; cbn in *; auto. subst c. reflexivity.
Qed.
Lemma mem_value (b : buf V) l : mem true b l -> mem true (map (@get_value V) (map (@put_value V) b)) l.
Proof.
  intros H. induction H as [|c x b l Hc H IH]; cbn; constructor; [|exact IH]. destruct x; cbn in *; auto. subst c. reflexivity.
Qed.
Lemma canon_rep a M K : arep a M K -> arep (canon a) M K.
Proof.
  intros (L & ((N & O & Z) & [k E] & F) & HM & HK). exists L. repeat split; auto.
  - destruct O as [q O]. exists q. apply mem_index. exact O.
  - destruct Z as [q Z]. exists q. apply mem_index. exact Z.
  - exists k. apply mem_value. exact E.
  - discriminate.
Qed.
Lemma put_get_index (b : buf nat) : map (@put_index V) (map (@get_index V) (map (@put_index V) b)) = map (@put_index V) b.
Proof. induction b as [|[| |] b IH]; cbn; congruence. Qed.
Lemma put_get_value (b : buf V) : map (@put_value V) (map (@get_value V) (map (@put_value V) b)) = map (@put_value V) b.
Proof. induction b as [|[| |] b IH]; cbn; congruence. Qed.
Lemma stored_canon a : stored (canon a) = stored a.
Proof. unfold stored, canon. cbn. rewrite !put_get_index, put_get_value. reflexivity. Qed.

(** ** Reading *)
Lemma read_row_ok a M K i r : arep a M K -> nth_error M i = Some r -> forall k j, j + k = length r ->
  read_row chk a i j k = Ok (skipn j r).
Proof.
  intros H Hr. induction k as [|k IH]; intros j Hj; cbn [read_row]; [rewrite skipn_all2 by lia; reflexivity|].
  destruct (nth_error r j) as [v|] eqn:Ev; [|apply nth_error_None in Ev; lia].
  rewrite (rep_at chk H Hr Ev). cbn [bind]. rewrite IH by lia. cbn [bind]. f_equal.
  clear - Ev. revert j Ev. induction r as [|x r IH]; intros [|j] E; try discriminate; cbn in *; [congruence|]. apply IH. exact E.
Qed.
Lemma read_rows_ok a M K : arep a M K -> forall k i, i + k = length M -> read_rows chk a i k = Ok (skipn i M).
Proof.
  intros H. induction k as [|k IH]; intros i Hi; cbn [read_rows]; [rewrite skipn_all2 by lia; reflexivity|].
  destruct (nth_error M i) as [r|] eqn:Er; [|apply nth_error_None in Er; lia].
  rewrite (rep_size chk H Er). cbn [bind]. rewrite (read_row_ok H Er) by reflexivity. cbn [bind]. rewrite IH by lia. cbn [bind skipn]. f_equal.
  clear - Er. revert i Er. induction M as [|x r' IH]; intros [|j] E; try discriminate; cbn in *; [congruence|]. apply IH. exact E.
Qed.
Lemma read_all_ok a M K : arep a M K -> read_all chk a = Ok M.
Proof. intros H. unfold read_all. rewrite (rep_num H). apply (read_rows_ok H). reflexivity. Qed.

(** ** Host methods *)
Lemma astep_ok c a M K M' : arep a M K -> vec_step dflt c M = Some M' -> exists a', astep c a = Ok a' /\ arep a' M' (cap_step c M K).
Proof. intros H E. pose proof (AoAProofs4.step_ok chk dflt c H) as S. rewrite E in S. apply okb_true. exact S. Qed.
Lemma offs_len a M K : arep a M K -> length (offs a) <> 0.
Proof. intros (L & ((_ & [q O] & _) & _) & _). apply mem_length in O. rewrite O, app_length, map_length, offsets_length. lia. Qed.

Lemma on_row_some M i f M' : @on_row V M i f = Some M' -> exists r r', nth_error M i = Some r /\ f r = Some r' /\ M' = put_at M i r'.
Proof. unfold on_row. destruct (nth_error M i) as [r|]; [|discriminate]. destruct (f r) as [r'|] eqn:E; [|discriminate]. intros [= <-]. eauto. Qed.
Lemma cap_at a M K i r : arep a M K -> nth_error M i = Some r -> capacityOfArray chk a i = Ok (nth i K 0) /\ sizeOfArray chk a i = Ok (length r) /\ i < length K.
Proof.
  intros H Hr. pose proof (rep_lens H) as [L _]. assert (i < length M) by (apply nth_error_Some; congruence).
  split; [|split; [apply (rep_size chk H Hr)|lia]]. apply (rep_cap chk H). apply nth_error_nth'. lia.
Qed.
Lemma no_growth a M K i r inc : arep a M K -> nth_error M i = Some r -> (grows chk a i inc = false <-> length r + inc <= nth i K 0) /\
  (grows chk a i inc = false -> dynamicallyGrowArray chk true true false BMalloc a i inc = Ok a).
Proof.
  intros H Hr. destruct (cap_at H Hr) as (C & S & _). unfold grows, capacity_is, dynamicallyGrowArray. rewrite S. cbn [bind]. rewrite C. cbn [bind].
  split; [rewrite Nat.ltb_ge; reflexivity|]. intros ->. reflexivity.
Qed.

Lemma each_offs f a a' : @each V unit true true false f a = Ok a' -> offs a' = offs a.
Proof. unfold each. intros E. st E. cbn [bind] in E. injection E as <-. reflexivity. Qed.
Lemma put_size_offs a a' i n : put_size a i n = Ok a' -> offs a' = offs a /\ numArrays a' = numArrays a /\ vals a' = vals a /\ length (szs a') = length (szs a).
Proof. unfold put_size. intros E. st E. injection E as <-. cbn. apply store_len in Heqo. auto. Qed.
(** The members of the view write sizes and values in place. *)
Definition in_place a a' : Prop := offs a' = offs a /\ numArrays a' = numArrays a /\ length (szs a') = length (szs a) /\ length (vals a') = length (vals a).
Lemma vstep_place c a a' : vstep chk c a = Ok a' -> in_place a a'.
Proof.
  unfold in_place. destruct c; cbn [vstep]; intros E; try discriminate.
  - unfold v_emplaceBack in E. do 5 st E. apply put_size_offs in E. destruct E as (-> & -> & -> & ->). cbn. apply place_len in Heqo3. auto.
  - unfold v_appendToArray in E. do 4 st E. destruct x2 as [b n]. st E. apply put_size_offs in E. destruct E as (-> & -> & -> & ->). cbn. apply append_len in Heqo2. auto.
  - unfold v_emplace in E. do 5 st E. apply put_size_offs in E. destruct E as (-> & -> & -> & ->). cbn. apply emplace_len in Heqo3. auto.
  - unfold v_insertIntoArray in E. do 5 st E. apply put_size_offs in E. destruct E as (-> & -> & -> & ->). cbn. apply insert_len in Heqo3. auto.
  - unfold eraseFromArray in E. do 5 st E. apply put_size_offs in E. destruct E as (-> & -> & -> & ->). cbn. apply erase_len in Heqo2. auto.
  - unfold aoa_set in E. do 2 st E. injection E as <-. cbn. apply store_len in Heqo0. auto.
Qed.
Lemma set_sizes i j v a a' : vstep chk (ASet i j v) a = Ok a' -> szs a' = szs a.
Proof. cbn [vstep]. unfold aoa_set. intros E. do 2 st E. injection E as <-. reflexivity. Qed.

(** A method which does not touch m_offsets leaves them alone or reallocates them, with the exceptions given by [careful]. *)
Lemma touch_sound c a M K M' a' : arep a M K -> vec_step dflt c M = Some M' -> careful c K = true -> astep c a = Ok a' ->
  touches_offsets chk c a = false -> offs a' = offs a \/ length (offs a') <> length (offs a).
Proof.
  intros H EM C E T. destruct c; cbn [careful touches_offsets vec_step AoA.astep] in *; try discriminate; try (rewrite C in T; discriminate).
  - (* reserve *) unfold aoa_reserve in E. do 2 st E. injection E as <-. cbn. eapply reserve_same; eauto.
  - (* reserveValues *) unfold reserveValues in E. st E. left. eapply each_offs; eauto.
  - (* eraseArray *) destruct (Nat.ltb_spec i (length M)); [|discriminate]. destruct (nth_error M i) as [r|] eqn:Er; [|apply nth_error_None in Er; lia].
    unfold capacity_is in T. destruct (cap_at H Er) as (Cp & _). rewrite Cp in T. apply Nat.ltb_lt in C. destruct (nth i K 0) eqn:Q; [lia|discriminate].
  - apply on_row_some in EM. destruct EM as (r & r' & Er & _). destruct (no_growth 1 H Er) as [_ G]. unfold aoa_emplaceBack in E. rewrite G in E by exact T. cbn [bind] in E.
    left. apply (@vstep_place (AEmplaceBack i v) a a'). exact E.
  - apply on_row_some in EM. destruct EM as (r & r' & Er & _). destruct (no_growth (length vs) H Er) as [_ G]. unfold aoa_appendToArray in E. rewrite G in E by exact T. cbn [bind] in E.
    left. apply (@vstep_place (AAppendTo i vs) a a'). exact E.
  - apply on_row_some in EM. destruct EM as (r & r' & Er & _). destruct (no_growth 1 H Er) as [_ G]. unfold aoa_emplace in E. rewrite G in E by exact T. cbn [bind] in E.
    left. apply (@vstep_place (AEmplace i j v) a a'). exact E.
  - apply on_row_some in EM. destruct EM as (r & r' & Er & _). destruct (no_growth (length vs) H Er) as [_ G]. unfold aoa_insertIntoArray in E. rewrite G in E by exact T. cbn [bind] in E.
    left. apply (@vstep_place (AInsertInto i j vs) a a'). exact E.
  - left. apply (@vstep_place (AEraseFrom i j n) a a'). exact E.
  - apply on_row_some in EM. destruct EM as (r & r' & Er & _). destruct (cap_at H Er) as (Cp & _). unfold capacity_is in T. unfold resizeArray in E. st E. rewrite Cp in *. cbn [bind] in E. rewrite T in E. cbn [bind] in E.
    do 4 st E. apply put_size_offs in E. left. apply E.
  - apply on_row_some in EM. destruct EM as (r & r' & Er & _). destruct (cap_at H Er) as (Cp & _). unfold resizeArray in E. st E. rewrite Cp in *. cbn [bind] in E. destruct (Nat.ltb_spec (nth i K 0) 0); [lia|]. cbn [bind] in E.
    do 4 st E. apply put_size_offs in E. left. apply E.
  - apply on_row_some in EM. destruct EM as (r & r' & Er & _). destruct (cap_at H Er) as (Cp & _). unfold capacity_is in T. unfold setCapacityOfArray in E. st E. rewrite Cp in *. cbn [bind] in E.
    rewrite Nat.eqb_sym in E. apply negb_false_iff in T. rewrite T in E. left. congruence.
  - left. apply (@vstep_place (ASet i j v) a a'). exact E.
Qed.

(** ** Kernels *)
Lemma put_at_same X (l : list X) i d : i < length l -> put_at l i (nth i l d) = l.
Proof.
  unfold put_at. revert i. induction l as [|x l IH]; intros [|i] H; cbn in *; try lia; [reflexivity|]. f_equal. apply IH. lia.
Qed.
Lemma vstep_ok c a M K M' : arep a M K -> vcompiles ToView c = true -> fits c M K = true -> vec_step dflt c M = Some M' ->
  exists a', vstep chk c a = Ok a' /\ arep a' M' K.
Proof.
  intros H W F E. destruct (astep_ok H E) as (a' & Ea & Ha). exists a'. destruct c; cbn [vcompiles] in W; try discriminate; cbn [fits vec_step cap_step AoA.astep vstep] in *; try (split; assumption).
  all: apply on_row_some in E; destruct E as (r & r' & Er & _); pose proof (cap_at H Er) as (_ & _ & LK); apply Nat.leb_le in F; rewrite (nth_error_nth _ _ [] Er) in F.
  all: unfold cap_grow, grown in Ha; rewrite (nth_error_nth _ _ [] Er) in Ha.
  - destruct (no_growth 1 H Er) as [G1 G2]. unfold aoa_emplaceBack in Ea. rewrite G2 in Ea by (apply G1; lia). split; [exact Ea|]. destruct (Nat.ltb_spec (nth i K 0) (length r + 1)); [lia|]. rewrite put_at_same in Ha by exact LK. exact Ha.
  - destruct (no_growth (length vs) H Er) as [G1 G2]. unfold aoa_appendToArray in Ea. rewrite G2 in Ea by (apply G1; lia). split; [exact Ea|]. destruct (Nat.ltb_spec (nth i K 0) (length r + length vs)); [lia|]. rewrite put_at_same in Ha by exact LK. exact Ha.
  - destruct (no_growth 1 H Er) as [G1 G2]. unfold aoa_emplace in Ea. rewrite G2 in Ea by (apply G1; lia). split; [exact Ea|]. destruct (Nat.ltb_spec (nth i K 0) (length r + 1)); [lia|]. rewrite put_at_same in Ha by exact LK. exact Ha.
  - destruct (no_growth (length vs) H Er) as [G1 G2]. unfold aoa_insertIntoArray in Ea. rewrite G2 in Ea by (apply G1; lia). split; [exact Ea|]. destruct (Nat.ltb_spec (nth i K 0) (length r + length vs)); [lia|]. rewrite put_at_same in Ha by exact LK. exact Ha.
Qed.
Lemma compiles_more k c : @vcompiles V k c = true -> vcompiles ToView c = true.
Proof. destruct k, c; cbn; congruence. Qed.
Lemma vrun_ok k cs : forall a M K M', arep a M K -> view_calls dflt k cs M K = Some M' ->
  exists a', vrun chk cs a = Ok a' /\ arep a' M' K /\ in_place a a' /\ (k <> ToView -> szs a' = szs a) /\ (k = ToViewConst -> vals a' = vals a).
Proof.
  induction cs as [|c cs IH]; intros a M K M' H E; cbn [view_calls vrun] in *.
  - injection E as <-. exists a. unfold in_place. auto 10.
  - destruct (vcompiles k c) eqn:W; [|discriminate]. destruct (fits c M K) eqn:F; [|discriminate]. cbn [andb] in E. destruct (vec_step dflt c M) as [M1|] eqn:E1; [|discriminate].
    destruct (vstep_ok H (compiles_more W) F E1) as (a1 & V1 & H1). rewrite V1. cbn [bind]. destruct (IH a1 M1 K M' H1 E) as (a' & V2 & H2 & (P1 & P2 & P3 & P4) & S & T). exists a'.
    destruct (vstep_place V1) as (Q1 & Q2 & Q3 & Q4). split; [exact V2|]. split; [exact H2|]. split; [unfold in_place; repeat split; congruence|]. split.
    + intros N. rewrite S by exact N. destruct k; [congruence| |]; destruct c; cbn in W; try discriminate; eapply set_sizes; eauto.
    + intros ->. cbn in W. destruct c; discriminate.
Qed.

(** ** Programs *)
Definition St (y : flat (nat + V) nat) M K : Prop := exists a, y = (numArrays a, stored a) /\ arep a M K.
Definition Kn (h : known) (p : SpacesSpec.place) : Prop :=
  length (p_marks p) = 3 /\
  match h with
  | Owned => p_own p = 0 /\ p_cur p = 0 /\ p_marks p = [true; true; true]
  | Written => p_own p = 0 /\ p_cur p = 0 /\ exists d, p_marks p = [d; true; true]
  | Readable => p_own p = 0 /\ p_cur p = 0
  | Away => p_own p = 0
  | Device => p_own p = 1 /\ p_cur p = 1 /\ exists d, p_marks p = [d; true; true]
  | DeviceRead => p_own p = 1 /\ p_cur p = 1
  | Lent => True
  end.

Lemma touched_mem t X (b : list X) : touched t b = true -> b <> [].
Proof. unfold touched. destruct b; cbn; [rewrite andb_false_r; discriminate|discriminate]. Qed.
Lemma map_nil A B (f : A -> B) l : l <> [] -> map f l <> [].
Proof. destruct l; cbn; congruence. Qed.

Lemma keep_ok k a a' : in_place (canon a) a' -> (k <> ToView -> szs a' = szs (canon a)) -> (k = ToViewConst -> vals a' = vals (canon a)) ->
  keep (vmask k) (stored a) (stored a') = Ok (stored a').
Proof.
  intros (P1 & _ & P3 & P4) S T. unfold stored. cbn [vmask]. rewrite P1. cbn [canon offs szs vals] in *. rewrite put_get_index. rewrite !map_length in P3, P4.
  destruct k; cbn [vmask keep].
  - rewrite !map_length, P3, P4, !Nat.eqb_refl. reflexivity.
  - rewrite S by discriminate. rewrite !map_length, P4, Nat.eqb_refl, put_get_index. reflexivity.
  - rewrite S by discriminate. rewrite T by reflexivity. rewrite put_get_index, put_get_value. reflexivity.
Qed.

Lemma len3 A (l : list A) : length l = 3 -> exists x y z : A, l = [x; y; z].
Proof. destruct l as [|a [|b [|c [|? ?]]]]; try discriminate. eauto. Qed.

Lemma marks3 same d1 d2 d3 m1 m2 m3 : marks_in same [d1; d2; d3] [m1; m2; m3] = [same && d1 || m1; same && d2 || m2; same && d3 || m3]%bool.
Proof. reflexivity. Qed.

Theorem program_ok : forall us h M K outs p y, obeys dflt us h M K = true -> meaning dflt us M K = Some outs -> St y M K -> Kn h p ->
  follows aoa_dev (map (op_of chk dflt) us) p y /\ exists y', flat_run (map (op_of chk dflt) us) y = Ok (y', outs).
Proof.
  induction us as [|u us IH]; intros h M K outs p y B E HS HK; cbn [obeys meaning map] in *.
  { injection E as <-. split; [exact I|]. eexists. reflexivity. }
  destruct (next u h K) as [h'|] eqn:En; [|discriminate]. destruct HS as (a & -> & Ha). destruct HK as [HL HK]. destruct (len3 HL) as (d1 & d2 & d3 & Em).
  pose proof (canon_rep Ha) as Hc. destruct u as [c| |s k cs|s k cs|s touch|s]; cbn [op_of follows flat_run after reports] in *; [| | | | |destruct h; discriminate].
  - (* host call *)
    destruct (vec_step dflt c M) as [M'|] eqn:E1; [|discriminate]. destruct (meaning dflt us M' (cap_step c M K)) as [outs'|] eqn:E2; [|discriminate]. injection E as <-.
    destruct (astep_ok Hc E1) as (a' & Ea & Ha').
    assert (Hf : host_call chk dflt c (numArrays a) (stored a) = Ok (numArrays a', stored a', [touched (touches_offsets chk c (canon a)) (offs a'); touched (touches_sizes c) (szs a'); false], None)).
    { unfold host_call. rewrite loaded_stored. cbn [bind]. rewrite Ea. reflexivity. }
    cbn [flat_step]. rewrite Hf. cbn [bind length stored Nat.eqb andb]. cbn [allowed place_step fst snd]. rewrite Hf.
    assert (Cov : all_covered (p_marks p) [touched (touches_offsets chk c (canon a)) (offs a'); touched (touches_sizes c) (szs a'); false] (stored a) (stored a') /\
      p_own p = 0 /\ p_cur p = 0 /\ Kn h' (mkPlace 0 0 (host_marks (p_marks p) [touched (touches_offsets chk c (canon a)) (offs a'); touched (touches_sizes c) (szs a'); false] (stored a) (stored a')))).
    { destruct h; cbn [next] in En; try discriminate.
      - injection En as <-. destruct HK as (-> & -> & ->). cbn [all_covered stored host_marks orb]. repeat split; auto; try (intros T; apply map_nil; eapply touched_mem; exact T); discriminate.
      - destruct (careful c K) eqn:Ec; [|discriminate]. injection En as <-. destruct HK as (-> & -> & d & ->). cbn [all_covered stored host_marks orb]. repeat split; auto; try (intros T; apply map_nil; eapply touched_mem; exact T); try discriminate.
        + destruct (touched (touches_offsets chk c (canon a)) (offs a')) eqn:Et; [auto|]. right. right.
          assert (T : touches_offsets chk c (canon a) = false).
          { unfold touched in Et. pose proof (offs_len Ha') as L. destruct (length (offs a') =? 0) eqn:Q; [apply Nat.eqb_eq in Q; lia|]. cbn in Et. rewrite andb_true_r in Et. exact Et. }
          destruct (touch_sound Hc E1 Ec Ea T) as [Q|Q].
          * right. rewrite Q. cbn. symmetry. apply put_get_index.
          * left. cbn [canon offs] in Q. rewrite !map_length in *. congruence.
        + eexists. reflexivity. }
    destruct Cov as (Cov & O1 & O2 & HK'). destruct (IH h' M' (cap_step c M K) outs' _ (numArrays a', stored a') B E2 (ex_intro _ a' (conj eq_refl Ha')) HK') as (F & y' & Hy).
    split; [auto 8|]. exists y'. rewrite Hy. reflexivity.
  - (* reading on the host *)
    destruct (meaning dflt us M K) as [outs'|] eqn:E2; [|discriminate]. injection E as <-.
    assert (Hf : host_read chk (numArrays a) (stored a) = Ok (numArrays a, stored a, [false; false; false], Some M)).
    { unfold host_read. rewrite loaded_stored. cbn [bind]. rewrite (read_all_ok Hc). reflexivity. }
    cbn [flat_step]. rewrite Hf. cbn [bind length stored Nat.eqb andb]. cbn [allowed place_step fst snd]. rewrite Hf. rewrite Em.
    assert (HM : host_marks [d1; d2; d3] [false; false; false] (stored a) (stored a) = [d1; d2; d3]).
    { cbn. rewrite !Nat.eqb_refl, !orb_false_r. reflexivity. }
    assert (h' = h /\ p_own p = 0 /\ p_cur p = 0) as (-> & O1 & O2) by (destruct h; cbn in En; try discriminate; injection En as <-; tauto).
    destruct (IH h M K outs' (mkPlace 0 0 [d1; d2; d3]) (numArrays a, stored a) B E2 (ex_intro _ a (conj eq_refl Ha))) as (F & y' & Hy).
    { split; [reflexivity|]. cbn [p_own p_cur p_marks]. destruct h; cbn in En; try discriminate; rewrite ?Em in HK; tauto. }
    fold (stored a). rewrite HM. split; [|exists y'; rewrite Hy; reflexivity]. split; [|exact F]. split; [exact O1|]. split; [exact O2|]. intros _ _. cbn. repeat split; auto; discriminate.
  - (* kernel *)
    destruct (view_calls dflt k cs M K) as [M'|] eqn:E1; [|discriminate]. destruct (meaning dflt us M' K) as [outs'|] eqn:E2; [|discriminate]. injection E as <-.
    destruct (vrun_ok Hc E1) as (a' & Ea & Ha' & P & S & T).
    assert (Hs : s < 2) by (destruct s as [|[|s]]; [lia|lia|destruct h; discriminate]).
    cbn [flat_step]. replace (length (vmask k) =? length (stored a)) with true by (destruct k; reflexivity). cbn [bind].
    unfold kernel at 2 4. rewrite loaded_stored. cbn [bind]. rewrite Ea. cbn [bind]. rewrite (read_all_ok Ha'). cbn [bind].
    rewrite (keep_ok P S T). cbn [bind allowed place_step]. destruct P as (_ & Pn & _). cbn [canon numArrays] in Pn. rewrite <- Pn.
    destruct (IH h' M' K outs' (mkPlace (p_own p) s (marks_in (p_cur p =? s) (p_marks p) (vmask k))) (numArrays a', stored a') B E2 (ex_intro _ a' (conj eq_refl Ha'))) as (F & y' & Hy).
    { split; [rewrite Em; destruct k; reflexivity|]. cbn [p_own p_cur p_marks]. destruct s as [|[|s]]; [| |lia].
      - destruct h.
        + destruct HK as (-> & -> & ->). destruct k; injection En as <-; cbn; auto.
        + destruct HK as (-> & -> & d & ->). destruct k; injection En as <-; cbn; rewrite ?orb_false_r; eauto.
        + destruct HK as (-> & ->). destruct k; injection En as <-; rewrite ?Em; cbn; rewrite ?orb_true_r; eauto.
        + rewrite HK. destruct k; injection En as <-; rewrite ?Em; cbn [vmask]; rewrite ?marks3, ?orb_true_r; eauto.
        + destruct k; injection En as <-; exact I.
        + destruct k; injection En as <-; exact I.
        + destruct k; injection En as <-; exact I.
      - destruct h; cbn [next] in En; injection En as <-; try exact I; try tauto.
        + destruct HK as (-> & -> & d & ->). destruct k; cbn; rewrite ?orb_false_r; eauto. }
    split; [auto|]. exists y'. rewrite Hy. reflexivity.
  - (* code with the container itself *)
    destruct (view_calls dflt k cs M K) as [M'|] eqn:E1; [|discriminate]. destruct (meaning dflt us M' K) as [outs'|] eqn:E2; [|discriminate]. injection E as <-.
    destruct (vrun_ok Hc E1) as (a' & Ea & Ha' & P & S & T).
    cbn [flat_step]. replace (length (vmask k) =? length (stored a)) with true by (destruct k; reflexivity). cbn [bind].
    unfold kernel at 2 4. rewrite loaded_stored. cbn [bind]. rewrite Ea. cbn [bind]. rewrite (read_all_ok Ha'). cbn [bind].
    rewrite (keep_ok P S T). cbn [bind allowed place_step]. destruct P as (_ & Pn & _). cbn [canon numArrays] in Pn. rewrite <- Pn.
    assert (Q : h' = h /\ p_own p = s /\ p_cur p = s /\ forall i, nth_error (vmask k) i = Some true -> nth_error (p_marks p) i = Some true).
    { destruct s as [|[|s]]; [| |destruct h, k; discriminate]; destruct h, k; cbn [next] in En; try discriminate; injection En as <-;
        (try destruct HK as (-> & -> & ->)); (try destruct HK as (-> & -> & d & ->)); (try destruct HK as (-> & ->)); do 3 (split; [reflexivity|]);
        intros [|[|[|[|i]]]]; cbn; congruence. }
    destruct Q as (-> & Q). destruct (IH h M' K outs' p (numArrays a', stored a') B E2 (ex_intro _ a' (conj eq_refl Ha')) (conj HL HK)) as (F & y' & Hy).
    split; [split; [exact Q|exact F]|]. exists y'. rewrite Hy. reflexivity.
  - (* move *)
    destruct (meaning dflt us M K) as [outs'|] eqn:E2; [|discriminate]. injection E as <-.
    assert (Hs : s < 2) by (destruct s as [|[|s]]; [lia|lia|destruct h; discriminate]).
    cbn [flat_step allowed place_step].
    destruct (IH h' M K outs' (mkPlace s s (marks_in (p_cur p =? s) (p_marks p) (map (fun t => (touch && (t || (s =? 0)))%bool) aoa_dev))) (numArrays a, stored a) B E2 (ex_intro _ a (conj eq_refl Ha))) as (F & y' & Hy).
    { split; [rewrite Em; reflexivity|]. cbn [p_own p_cur p_marks aoa_dev map]. rewrite Em, marks3. destruct s as [|[|s]]; [| |lia].
      - destruct touch; cbn [next Nat.eqb] in *.
        + assert (h' = Owned) as -> by (destruct h; congruence). cbn. rewrite !orb_true_r. auto.
        + destruct h; injection En as <-; auto.
          * destruct HK as (_ & -> & Q). rewrite Em in Q. injection Q as -> -> ->. cbn. auto.
          * destruct HK as (_ & -> & d & Q). rewrite Em in Q. injection Q as -> -> ->. cbn. rewrite ?orb_false_r. eauto.
      - destruct touch; cbn [next Nat.eqb] in *.
        + assert (h' = Device) as -> by (destruct h; congruence). cbn. rewrite !orb_true_r, ?orb_false_r. eauto.
        + destruct h; injection En as <-; auto. destruct HK as (_ & -> & d & Q). rewrite Em in Q. injection Q as -> -> ->. cbn. rewrite ?orb_false_r. eauto. }
    split; [auto|]. exists y'. cbn [bind]. rewrite Hy. reflexivity.
Qed.

Theorem aoa_program_ok n cap us outs : obeys dflt us Owned (repeat [] n) (repeat cap n) = true -> meaning dflt us (repeat [] n) (repeat cap n) = Some outs ->
  exists x, aoa_program chk dflt n cap us = Ok (x, None :: outs).
Proof.
  intros B E. unfold aoa_program. pose proof (new_ok chk true true fu n cap) as (a & Ea & Ha).
  set (l := map (op_of chk dflt) (UCall (AResize n cap) :: us)).
  assert (Hf : host_call chk dflt (AResize n cap) 0 [[]; []; []] = Ok (numArrays a, stored a, [touched true (offs a); touched (0 <? n) (szs a); false], None)).
  { unfold host_call. cbn [loaded bind map]. change (mkAoA 0 [] [] [] []) with (null_aoa V unit BMalloc). cbn [AoA.astep]. unfold new_aoa in Ea. rewrite Ea. reflexivity. }
  assert (HK : Kn Owned (mkPlace 0 0 (host_marks [true; true; true] [touched true (offs a); touched (0 <? n) (szs a); false] [[]; []; []] (stored a)))) by (split; [reflexivity|]; cbn; auto).
  destruct (@program_ok us Owned _ _ outs _ (numArrays a, stored a) B E (ex_intro _ a (conj eq_refl Ha)) HK) as (F & y' & Hy).
  assert (FF : follows aoa_dev l (home aoa_dev) (0, map (fun _ => []) aoa_dev)).
  { subst l. cbn [map op_of follows flat_step allowed place_step home p_marks aoa_dev fst snd]. rewrite Hf. cbn [bind length stored Nat.eqb andb p_own p_cur]. split; [|exact F].
    split; [reflexivity|]. split; [reflexivity|]. intros _ _. cbn [all_covered stored map]. repeat split; auto; try (intros T; apply map_nil; eapply touched_mem; exact T); discriminate. }
  assert (FR : flat_run l (0, map (fun _ => []) aoa_dev) = Ok (y', None :: outs)).
  { subst l. cbn [map op_of flat_run flat_step aoa_dev]. rewrite Hf. cbn [bind length stored Nat.eqb andb]. rewrite Hy. reflexivity. }
  pose proof (SpacesProofs.run_ok (new_rel _ _ 0) FF) as R. rewrite FR in R.
  destruct R as (x' & p' & R & _). exists x'. exact R.
Qed.
End AoAS.
