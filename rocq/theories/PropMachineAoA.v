(** C75: the arithmetic of ArrayOfArrays in a machine integer type. *)
From Coq Require Import List Arith ZArith Lia Bool.
From Verif Require Import Base Mem BufferManip AoA AoASpec AoAProofs4 MachineAoA MachineAoASpec MachineAoAProofs MachineAoAGen MachineAoAProofs2 MachineRange.
From Verif Require MachineSetsProofs2.
Import ListNotations.
Set Implicit Arguments.
Unset Strict Implicit.

(** Whatever the state and the program: machine arithmetic gives the outcome of unbounded arithmetic, or the
    program has overflowed. *)
Theorem C75_same_or_overflow : forall V W hi chk tv tw dual kind (dflt : V) h (a : aoa V W),
  m_arun hi chk tv tw dual kind dflt h a = arun chk tv tw dual kind dflt h a \/
  m_arun hi chk tv tw dual kind dflt h a = Fault FOverflow.
Proof. intros. apply sim_run. Qed.
Print Assumptions C75_same_or_overflow.

(** If the program ends normally, the number of arrays, the offsets and the sizes can be represented; the numbers
    of elements asked for are INDEX_TYPEs. *)
Theorem C75_representable : forall V hi chk tv tw (dflt : V) n cap h a, Forall (a_args hi) h ->
  (a <- m_new_aoa V unit hi chk tv tw false BMalloc n cap ;; m_arun hi chk tv tw false BMalloc dflt h a) = Ok a -> representable hi a.
Proof.
  intros V hi chk tv tw dflt n cap h a F E. apply rng_representable.
  refine (MachineSetsProofs2.then_bind (Q := rng hi) _ _ E); [apply r_resize, r_null|]. intros x Hx. apply r_arun; auto.
Qed.
Print Assumptions C75_representable.

(** As long as one number more than there are inner arrays and the sum of the capacities can be represented
    after every call, nothing overflows and the contents are those of a vector of vectors. *)
Theorem C75_in_range : forall V hi chk tv tw (dflt : V) n cap h,
  n + 1 <= hi -> n * cap <= hi ->
  rows_stay dflt hi h (repeat [] n) = true -> caps_stay dflt hi h (repeat [] n) (repeat cap n) = true ->
  vec_run dflt h (repeat [] n) <> None ->
  (a <- m_new_aoa V unit hi chk tv tw false BMalloc n cap ;; m_arun hi chk tv tw false BMalloc dflt h a) =
  (a <- new_aoa V unit chk tv tw false BMalloc n cap ;; arun chk tv tw false BMalloc dflt h a) /\
  (tv = true -> exists a M, vec_run dflt h (repeat [] n) = Some M /\
     (a <- m_new_aoa V unit hi chk tv tw false BMalloc n cap ;; m_arun hi chk tv tw false BMalloc dflt h a) = Ok a /\
     numArrays a = length M /\
     forall i r, nth_error M i = Some r -> sizeOfArray chk a i = Ok (length r) /\
       forall j v, nth_error r j = Some v -> aoa_at chk a i j = Ok v).
Proof.
  intros V hi chk tv tw dflt n cap h Hn Hc Rs Cs Hv.
  set (fw := fun _ : V => tt).
  assert (E : (a <- m_new_aoa V unit hi chk tv tw false BMalloc n cap ;; m_arun hi chk tv tw false BMalloc dflt h a) =
              (a <- new_aoa V unit chk tv tw false BMalloc n cap ;; arun chk tv tw false BMalloc dflt h a)).
  { rewrite (@m_new_exact V V unit (fun v => v) fw hi chk tv tw false n cap Hn).
    destruct (Nat.leb_spec (n * cap) hi); [|lia].
    destruct (new_ok chk tv tw fw n cap) as (a & -> & H0). cbn [bind].
    eapply run_eq; eauto.
    - apply Nat.leb_le. rewrite repeat_length. auto.
    - apply Nat.leb_le. clear -Hc. replace (list_sum (repeat cap n)) with (n * cap); auto.
      clear. induction n; simpl; auto. }
  split; [exact E|]. intros ->. rewrite E.
  destruct (new_ok chk true tw fw n cap) as (a & -> & H0). cbn [bind].
  pose proof (run_ok chk dflt h H0) as R. destruct (vec_run dflt h (repeat [] n)) as [M|]; [|congruence].
  destruct R as [(a' & Ea & H1)|[R _]]; [|discriminate].
  exists a', M. rewrite Ea. split; auto. split; auto. split; [eapply rep_num; eauto|].
  intros i r Hr. split; [eapply rep_size; eauto|]. intros j v Hj. eapply rep_at; eauto.
Qed.
Print Assumptions C75_in_range.

(** Exactly: with enough room for the number of inner arrays, the program overflows if and only if the sum
    of the capacities does not fit after some call. *)
Theorem C75_exact : forall V hi chk tv tw (dflt : V) n cap h,
  n + 1 <= hi -> rows_stay dflt hi h (repeat [] n) = true -> vec_run dflt h (repeat [] n) <> None ->
  tv = true \/ always_full dflt h (repeat [] n) (repeat cap n) = true ->
  (a <- m_new_aoa V unit hi chk tv tw false BMalloc n cap ;; m_arun hi chk tv tw false BMalloc dflt h a) =
  if ((n * cap <=? hi) && caps_stay dflt hi h (repeat [] n) (repeat cap n))%bool
  then a <- new_aoa V unit chk tv tw false BMalloc n cap ;; arun chk tv tw false BMalloc dflt h a
  else Fault FOverflow.
Proof.
  intros V hi chk tv tw dflt n cap h Hn Rs Hv F.
  set (fw := fun _ : V => tt).
  rewrite (@m_new_exact V V unit (fun v => v) fw hi chk tv tw false n cap Hn).
  destruct (Nat.leb_spec (n * cap) hi) as [Hc|Hc]; [|reflexivity].
  destruct (new_ok chk tv tw fw n cap) as (a & -> & H0). cbn [bind andb].
  eapply run_exact; eauto.
  - apply Nat.leb_le. rewrite repeat_length. auto.
  - apply Nat.leb_le. replace (list_sum (repeat cap n)) with (n * cap); auto. clear. induction n; simpl; auto.
  - destruct F as [->| ->]; auto. apply orb_true_r.
Qed.
Print Assumptions C75_exact.

(** * Programs which only add elements need at most twice the number of elements *)
Section Half.
Variable V : Type.
Variable dflt : V.
Implicit Types (M : list (list V)) (K : list nat).
Definition balanced M K : Prop := Forall2 (fun r k => k <= 2 * length r) M K.

Lemma balanced_sum M K : balanced M K -> list_sum K <= 2 * elements M.
Proof. unfold elements. induction 1; simpl in *; lia. Qed.
Lemma balanced_split M K i r : balanced M K -> nth_error M i = Some r ->
  exists M1 M2 K1 K2 k, M = M1 ++ r :: M2 /\ K = K1 ++ k :: K2 /\ length M1 = i /\ length K1 = i /\
    balanced M1 K1 /\ balanced M2 K2 /\ k <= 2 * length r.
Proof.
  intros H. revert i. induction H as [|x k M K Hx H IH]; intros [|i] E; simpl in E; try discriminate.
  - injection E as ->. exists [], M, [], K, k. repeat (split; auto). constructor.
  - destruct (IH i E) as (M1 & M2 & K1 & K2 & k' & -> & -> & L1 & L2 & B1 & B2 & B3).
    exists (x :: M1), M2, (k :: K1), K2, k'. simpl. repeat (split; auto). constructor; auto.
Qed.
Lemma balanced_cut M K i : balanced M K -> balanced (firstn i M) (firstn i K) /\ balanced (skipn i M) (skipn i K).
Proof.
  intros H. revert i. induction H as [|x k M K Hx H IH]; intros [|i]; cbn [firstn skipn].
  - split; constructor.
  - split; constructor.
  - split; [constructor|]. constructor; assumption.
  - destruct (IH i). split; [constructor; assumption|assumption].
Qed.
Lemma elements_app M1 M2 : elements (M1 ++ M2) = elements M1 + elements M2.
Proof. unfold elements. rewrite map_app, list_sum_app. auto. Qed.
Lemma elements_cons r M : elements (r :: M) = length r + elements M.
Proof. reflexivity. Qed.
Lemma on_row_balanced M K i f M' inc : balanced M K -> on_row M i f = Some M' ->
  (forall r r', f r = Some r' -> length r' = length r + inc) ->
  balanced M' (cap_grow M K i inc) /\ elements M <= elements M'.
Proof.
  intros H E Hf. unfold on_row in E. destruct (nth_error M i) as [r|] eqn:Er; [|discriminate].
  destruct (f r) as [r'|] eqn:Ef; [|discriminate]. injection E as <-. apply Hf in Ef.
  destruct (balanced_split H Er) as (M1 & M2 & K1 & K2 & k & -> & -> & L1 & L2 & B1 & B2 & B3).
  unfold cap_grow. rewrite !put_mid, !nth_mid by auto. split.
  - apply Forall2_app; auto. constructor; auto. unfold grown. destruct (k <? length r + inc); lia.
  - rewrite !elements_app, !elements_cons. lia.
Qed.
Lemma same_row_balanced M K i f M' : balanced M K -> on_row M i f = Some M' ->
  (forall r r', f r = Some r' -> length r' = length r) -> balanced M' K /\ elements M <= elements M'.
Proof.
  intros H E Hf. unfold on_row in E. destruct (nth_error M i) as [r|] eqn:Er; [|discriminate].
  destruct (f r) as [r'|] eqn:Ef; [|discriminate]. injection E as <-. apply Hf in Ef.
  destruct (balanced_split H Er) as (M1 & M2 & K1 & K2 & k & -> & -> & L1 & L2 & B1 & B2 & B3).
  rewrite !put_mid by auto. split.
  - apply Forall2_app; auto. constructor; auto. lia.
  - rewrite !elements_app, !elements_cons. lia.
Qed.
Lemma len_put {X} (l : list X) j x : j < length l -> length (put_at l j x) = length l.
Proof. intros H. unfold put_at. rewrite app_length, firstn_length. simpl. rewrite skipn_length. lia. Qed.
Lemma len_ins {X} (l : list X) j x : length (insert_at l j x) = length l + 1.
Proof. unfold insert_at. rewrite app_length, firstn_length. simpl. rewrite skipn_length. lia. Qed.

Lemma adds_step c M K M' : adds c = true -> vec_step dflt c M = Some M' -> balanced M K ->
  balanced M' (cap_step c M K) /\ elements M <= elements M'.
Proof.
  intros A E H. destruct c; try discriminate; cbn [vec_step cap_step] in *.
  - injection E as <-. auto.
  - injection E as <-. auto.
  - injection E as <-. split; auto. clear. unfold balanced. induction M; simpl; constructor; auto. lia.
  - injection E as <-. rewrite elements_app. split; [|lia]. apply Forall2_app; auto. constructor; [|constructor].
    rewrite repeat_length. lia.
  - injection E as <-. rewrite elements_app. split; [|lia]. apply Forall2_app; auto.
  - destruct (i <=? length M); [|discriminate]. injection E as <-. unfold insert_at.
    destruct (balanced_cut i H) as [B1 B2]. split.
    + apply Forall2_app; auto.
    + rewrite elements_app, elements_cons. rewrite <- (firstn_skipn i M) at 1. rewrite elements_app. lia.
  - eapply on_row_balanced; eauto. intros r r' F. injection F as <-. rewrite app_length. auto.
  - eapply on_row_balanced; eauto. intros r r' F. injection F as <-. rewrite app_length. auto.
  - eapply on_row_balanced; eauto. intros r r' F. cbv beta in F. destruct (j <=? length r); [|discriminate].
    injection F as <-. apply len_ins.
  - eapply on_row_balanced; eauto. intros r r' F. cbv beta in F. destruct (Nat.leb_spec j (length r)); [|discriminate].
    injection F as <-. rewrite !app_length, firstn_length, skipn_length. lia.
  - eapply same_row_balanced; eauto. intros r r' F. cbv beta in F. destruct (Nat.ltb_spec j (length r)); [|discriminate].
    injection F as <-. apply len_put. auto.
Qed.
Lemma adds_run hi h : forall M K M', forallb (@adds V) h = true -> vec_run dflt h M = Some M' -> balanced M K ->
  2 * elements M' <= hi -> caps_stay dflt hi h M K = true /\ elements M <= elements M'.
Proof.
  induction h as [|c h IH]; intros M K M' A E B H; cbn [vec_run caps_stay] in *.
  { injection E as <-. auto. }
  simpl in A. apply andb_prop in A. destruct A as [A1 A2].
  destruct (vec_step dflt c M) as [M1|] eqn:E1; [|discriminate].
  destruct (adds_step A1 E1 B) as [B1 L1]. destruct (IH _ _ _ A2 E B1 H) as [C1 L2]. split; [|lia].
  rewrite C1, andb_true_r. apply Nat.leb_le. pose proof (balanced_sum B1). lia.
Qed.
End Half.

Theorem C75_half : forall V hi chk tv tw (dflt : V) n h M,
  n + 1 <= hi -> rows_stay dflt hi h (repeat [] n) = true ->
  forallb (@adds V) h = true -> vec_run dflt h (repeat [] n) = Some M -> 2 * elements M <= hi ->
  (a <- m_new_aoa V unit hi chk tv tw false BMalloc n 0 ;; m_arun hi chk tv tw false BMalloc dflt h a) =
  (a <- new_aoa V unit chk tv tw false BMalloc n 0 ;; arun chk tv tw false BMalloc dflt h a).
Proof.
  intros V hi chk tv tw dflt n h M Hn Rs A E H.
  apply C75_in_range; auto; try lia; [|congruence].
  eapply adds_run; eauto. clear. unfold balanced. induction n; simpl; constructor; auto.
Qed.
Print Assumptions C75_half.

(** The bound cannot be weakened: appending an array of more than half as many elements as the index type
    can count overflows, although the number of elements fits and an array of that size can be added with
    the other overload. *)
Theorem C75_half_refuted : forall V hi chk (dflt : V) vs,
  2 <= hi -> length vs <= hi -> hi < 2 * length vs ->
  (a <- m_new_aoa V unit hi chk true true false BMalloc 0 0 ;; m_arun hi chk true true false BMalloc dflt [AAppendFrom vs] a)
    = Fault FOverflow /\
  exists a, (a <- m_new_aoa V unit hi chk true true false BMalloc 0 0 ;; m_arun hi chk true true false BMalloc dflt [AAppend (length vs)] a)
    = Ok a /\ sizeOfArray chk a 0 = Ok (length vs).
Proof.
  intros V hi chk dflt vs H2 Hl Hh. split.
  - rewrite C75_exact; auto; try (simpl; lia); try discriminate.
    + cbn [caps_stay vec_step cap_step repeat app]. unfold caps_fit. simpl list_sum.
      destruct (Nat.leb_spec (length vs + (length vs + 0) + 0) hi); [lia|]. rewrite andb_false_r. reflexivity.
    + cbn [rows_stay vec_step repeat app arg_fits]. unfold rows_fit. simpl length.
      destruct (Nat.leb_spec (1 + 1) hi); [reflexivity|lia].
  - destruct (@C75_in_range V hi chk true true dflt 0 0 [AAppend (length vs)]) as [_ Q]; try (simpl; lia); try discriminate.
    + cbn [rows_stay vec_step repeat app arg_fits]. unfold rows_fit. simpl length.
      destruct (Nat.leb_spec (1 + 1) hi); [reflexivity|lia].
    + cbn [caps_stay vec_step cap_step repeat app]. unfold caps_fit. simpl list_sum.
      destruct (Nat.leb_spec (length vs + 0) hi); [reflexivity|lia].
    + destruct (Q eq_refl) as (a & M & EM & Ea & _ & R). exists a. split; auto.
      cbn [vec_run vec_step repeat app] in EM. injection EM as <-.
      destruct (R 0 _ eq_refl) as [S _]. rewrite S, repeat_length. reflexivity.
Qed.
Print Assumptions C75_half_refuted.

(** With room for the numbers up to 12: the first three calls need capacities 4 + 6, the next makes
    the first row grow to 6. *)
Example C75_case :
  let h := [AAppendFrom [1; 2]; AAppendFrom [3; 4; 5]; AEmplaceBack 0 6] in
  let run hi h := bind (m_new_aoa nat unit hi true true true false BMalloc 0 0) (m_arun hi true true true false BMalloc 0 h) in
  caps_stay 0 12 h [] [] = true /\ caps_stay 0 12 (h ++ [AAppendTo 0 [7; 8]]) [] [] = false /\
  (exists a, run 12 h = Ok a /\ aoa_at true a 0 2 = Ok 6 /\ aoa_at true a 1 2 = Ok 5) /\
  run 12 (h ++ [AAppendTo 0 [7; 8]]) = Fault FOverflow /\
  (exists a, run 16 (h ++ [AAppendTo 0 [7; 8]]) = Ok a /\ aoa_at true a 0 4 = Ok 8) /\
  run 12 [AResize 4 4] = Fault FOverflow /\ run 12 [AResizeFromCapacities [5; 5; 5]] = Fault FOverflow /\
  run 12 [AResize 12 0] = Fault FOverflow.
Proof. vm_compute. repeat split; eexists; repeat split. Qed.
