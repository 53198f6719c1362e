(** Property C63: process wide handlers. *)
From Coq Require Import List Arith NArith Lia Bool.
From Verif Require Import Base Handlers.
Import ListNotations.

Section S.
Variable catchable : nat -> bool.
Notation set := (setSignalHandling catchable).
Notation reset := (resetSignalHandling catchable).

Lemma signal_os s h o : h <> SigErr -> forall k,
  fst (signal catchable s h o) k = if (catchable s && (k =? s))%bool then h else o k.
Proof.
  intros N k. unfold signal. destruct (catchable s); cbn [andb]; [|reflexivity].
  destruct h; try congruence; cbn [fst]; unfold upd_fun; destruct (k =? s); reflexivity.
Qed.
Lemma set_os h : h <> SigErr -> forall sigs st k,
  fst (set sigs h st) k = if (catchable k && existsb (Nat.eqb k) sigs)%bool then h else fst st k.
Proof.
  intros N. induction sigs as [|s sigs IH]; intros [o t] k; [cbn; rewrite andb_false_r; reflexivity|].
  cbn [setSignalHandling fst snd]. destruct (signal catchable s h o) as [o' old] eqn:E. rewrite IH. cbn [fst existsb].
  pose proof (@signal_os s h o N k) as S. rewrite E in S. cbn [fst] in S. rewrite S.
  destruct (Nat.eqb_spec k s) as [->|]; [destruct (catchable s) eqn:C|destruct (catchable s), (catchable k)]; cbn [andb orb]; try congruence;
  repeat match goal with |- context [if ?b then _ else _] => destruct b end; reflexivity.
Qed.

(** The entries of the table. *)
Fixpoint look (k : nat) (t : table) : option handler :=
  match t with [] => None | (s, h) :: t' => if k =? s then Some h else look k t' end.
Lemma look_put s h : forall t k, look k (put s h t) = if k =? s then Some h else look k t.
Proof.
  induction t as [|(s', h') t IH]; intros k; cbn; [reflexivity|].
  destruct (Nat.eqb_spec s s') as [->|]; cbn; [destruct (k =? s'); reflexivity|].
  rewrite IH. destruct (Nat.eqb_spec k s'), (Nat.eqb_spec k s); subst; congruence.
Qed.
Lemma put_keys s h : forall t, NoDup (map fst t) -> NoDup (map fst (put s h t)) /\ (forall k, In k (map fst (put s h t)) <-> k = s \/ In k (map fst t)).
Proof.
  induction t as [|(s', h') t IH]; intros D; cbn.
  - split; [repeat constructor; intros []|]. intros k. intuition.
  - inversion D; subst. destruct (Nat.eqb_spec s s') as [->|N]; cbn.
    + split; [exact D|]. intros k. intuition.
    + destruct (IH H2) as [A B]. split.
      * constructor; [|exact A]. intros I. apply B in I. destruct I; congruence.
      * intros k. rewrite B. intuition.
Qed.
Lemma set_table h : h <> SigErr -> forall sigs st, NoDup sigs -> NoDup (map fst (snd st)) ->
  NoDup (map fst (snd (set sigs h st))) /\
  forall k, look k (snd (set sigs h st)) =
    if existsb (Nat.eqb k) sigs then Some (if catchable k then fst st k else SigErr) else look k (snd st).
Proof.
  intros N. induction sigs as [|s sigs IH]; intros [o t] D K; [split; [exact K|reflexivity]|].
  inversion D; subst. cbn [setSignalHandling fst snd]. destruct (signal catchable s h o) as [o' old] eqn:E.
  destruct (@put_keys s old t K) as [K1 K2]. destruct (IH (o', put s old t) H2 K1) as [A B]. split; [exact A|].
  intros k. rewrite B. cbn [fst snd existsb]. rewrite look_put.
  assert (NS : existsb (Nat.eqb s) sigs = false).
  { destruct (existsb (Nat.eqb s) sigs) eqn:X; [|reflexivity]. apply existsb_exists in X as (x & I & Q). apply Nat.eqb_eq in Q. subst. contradiction. }
  pose proof (@signal_os s h o N k) as S. rewrite E in S. cbn [fst] in S.
  assert (O : old = if catchable s then o s else SigErr).
  { unfold signal in E. destruct (catchable s); [|congruence]. destruct h; try congruence; injection E as _ <-; reflexivity. }
  destruct (Nat.eqb_spec k s) as [->|X]; cbn [orb].
  - rewrite NS, O. reflexivity.
  - rewrite S, andb_false_r. reflexivity.
Qed.
Lemma restore_os : forall t o, NoDup (map fst t) -> forall k,
  fold_left (fun o a => fst (signal catchable (fst a) (snd a) o)) t o k =
  match look k t with Some h => if catchable k then match h with SigErr => o k | _ => h end else o k | None => o k end.
Proof.
  induction t as [|(s, h) t IH]; intros o D k; [reflexivity|]. inversion D; subst. cbn [fold_left fst snd look]. rewrite IH by assumption.
  assert (S : fst (signal catchable s h o) k = if (k =? s)%nat then (if catchable k then match h with SigErr => o k | _ => h end else o k) else o k).
  { unfold signal. destruct (Nat.eqb_spec k s) as [->|X]; destruct (catchable s) eqn:C; try reflexivity;
    destruct h; cbn [fst]; unfold upd_fun; try rewrite Nat.eqb_refl; try reflexivity; destruct (Nat.eqb_spec k s); congruence. }
  destruct (Nat.eqb_spec k s) as [->|X].
  - destruct (look s t) as [h'|] eqn:L; [|exact S]. exfalso. apply H1. clear - L. induction t as [|(x, y) t IH]; [discriminate|].
    cbn in *. destruct (Nat.eqb_spec s x); [left; congruence|right; apply IH; exact L].
  - rewrite S. reflexivity.
Qed.
End S.

(** C63: setSignalHandling installs the handler for the listed signals that can be caught and for no others; one
    resetSignalHandling after it brings back every handler, whatever the program did with the listed signals in
    between ([user] is the table then); the listed signals must be distinct numbers. *)
Theorem C63_signals : forall catchable sigs h (o user : os), h <> SigErr -> NoDup sigs -> (forall s, o s <> SigErr) ->
  let listed k := (catchable k && existsb (Nat.eqb k) sigs)%bool in
  let '(o1, t1) := setSignalHandling catchable sigs h (o, []) in
  (forall k, o1 k = if listed k then h else o k) /\
  (forall k, fst (resetSignalHandling catchable (user, t1)) k = if listed k then o k else user k) /\
  (forall k, fst (resetSignalHandling catchable (o1, t1)) k = o k).
Proof.
  intros catchable sigs h o user N D NE listed. destruct (setSignalHandling catchable sigs h (o, [])) as [o1 t1] eqn:E.
  pose proof (@set_os catchable h N sigs (o, [])) as A. pose proof (@set_table catchable h N sigs (o, []) D (NoDup_nil _)) as [K T].
  rewrite E in *. cbn [fst snd] in *.
  assert (R : forall u k, fst (resetSignalHandling catchable (u, t1)) k = if listed k then o k else u k).
  { intros u k. unfold resetSignalHandling. cbn [fst snd]. rewrite (@restore_os catchable t1 u K k), T. unfold listed.
    destruct (existsb (Nat.eqb k) sigs); [|rewrite andb_false_r; reflexivity]. destruct (catchable k); cbn [andb]; [|reflexivity].
    destruct (o k) eqn:OK; try reflexivity. destruct (NE k OK). }
  split; [exact A|]. split; [apply R|]. intros k. rewrite R, A. unfold listed. destruct (catchable k && existsb (Nat.eqb k) sigs)%bool; reflexivity.
Qed.
Print Assumptions C63_signals.
(** C63: a second setSignalHandling forgets the original handlers: resetSignalHandling then installs the first handler. *)
Theorem C63_set_twice : forall catchable sigs h1 h2 (o : os), h1 <> SigErr -> h2 <> SigErr -> NoDup sigs -> (forall s, o s <> SigErr) ->
  let st := setSignalHandling catchable sigs h2 (setSignalHandling catchable sigs h1 (o, [])) in
  forall k, fst (resetSignalHandling catchable st) k = if (catchable k && existsb (Nat.eqb k) sigs)%bool then h1 else o k.
Proof.
  intros catchable sigs h1 h2 o N1 N2 D NE st k. unfold st.
  destruct (setSignalHandling catchable sigs h1 (o, [])) as [o1 t1] eqn:E.
  pose proof (@set_os catchable h1 N1 sigs (o, [])) as A. pose proof (@set_table catchable h1 N1 sigs (o, []) D (NoDup_nil _)) as [K T].
  rewrite E in *. cbn [fst snd] in *.
  pose proof (@set_os catchable h2 N2 sigs (o1, t1)) as A2. pose proof (@set_table catchable h2 N2 sigs (o1, t1) D K) as [K2 T2].
  destruct (setSignalHandling catchable sigs h2 (o1, t1)) as [o2 t2]. cbn [fst snd] in *.
  unfold resetSignalHandling. cbn [fst snd]. rewrite (@restore_os catchable t2 o2 K2 k), T2, T, A2, A.
  destruct (existsb (Nat.eqb k) sigs), (catchable k); cbn [andb]; try reflexivity. destruct h1; congruence.
Qed.
Print Assumptions C63_set_twice.
(** C63: if a number is listed twice, as SIGABRT and SIGIOT are on the non POSIX branch, it is not brought back. *)
Theorem C63_duplicate_refuted : exists sigs, ~ NoDup sigs /\
  let '(o1, t1) := setSignalHandling (fun _ => true) sigs (User 1) (fun _ => SigDfl, []) in
  fst (resetSignalHandling (fun _ => true) (o1, t1)) 6 = User 1.
Proof. exists [6; 6]. split; [|vm_compute; reflexivity]. intros D. inversion D; subst. apply H1. left. reflexivity. Qed.
Print Assumptions C63_duplicate_refuted.
Example C63_case : NoDup [1; 2; 9] /\
  let '(o1, t1) := setSignalHandling (fun s => negb (s =? 9)) [1; 2; 9] (User 1) (fun s => if s =? 2 then SigIgn else SigDfl, []) in
  map o1 [1; 2; 3; 9] = [User 1; User 1; SigDfl; SigDfl] /\
  map (fst (resetSignalHandling (fun s => negb (s =? 9)) (o1, t1))) [1; 2; 3; 9] = [SigDfl; SigIgn; SigDfl; SigDfl].
Proof. split; [repeat constructor; cbn; intuition; discriminate|]. vm_compute. split; reflexivity. Qed.

(** C63: FloatingPointExceptionGuard, for code which does not enable exceptions outside of guards' destructors: after
    the block the same exceptions are enabled as before it; inside none of the given ones is. With code that enables
    some, these stay enabled in addition. *)
Fixpoint enables (c : code) : N :=
  match c with
  | Other | Disable _ => 0%N | Enable e => e | Seq c d => N.lor (enables c) (enables d) | Guarded _ b => enables b
  end.
Definition subset (a b : N) : Prop := forall i, N.testbit a i = true -> N.testbit b i = true.
Lemma exec_subset c : forall m, subset (exec c m) (N.lor m (enables c)).
Proof.
  unfold subset. induction c; intros m i; cbn [exec enables fst enableFloatingPointExceptions disableFloatingPointExceptions feenableexcept fedisableexcept];
    rewrite ?N.lor_spec, ?N.ldiff_spec, ?N.bits_0; intros H.
  - rewrite H. reflexivity.
  - exact H.
  - apply andb_prop in H as [H _]. rewrite H. reflexivity.
  - apply IHc2 in H. rewrite N.lor_spec in H. apply orb_prop in H as [H|H].
    + apply IHc1 in H. rewrite N.lor_spec in H. apply orb_prop in H as [H|H]; rewrite H; rewrite ?orb_true_r; reflexivity.
    + rewrite H, !orb_true_r. reflexivity.
  - apply orb_prop in H as [H|H].
    + apply IHc in H. rewrite N.lor_spec, N.ldiff_spec in H. apply orb_prop in H as [H|H]; [apply andb_prop in H as [H _]|]; rewrite H; rewrite ?orb_true_r; reflexivity.
    + rewrite H. reflexivity.
Qed.
Theorem C63_guard : forall e body m,
  (enables body = 0%N -> exec (Guarded e body) m = m) /\
  (exists extra, subset extra (enables body) /\ exec (Guarded e body) m = N.lor m extra) /\
  (forall i, N.testbit e i = true -> N.testbit (fst (disableFloatingPointExceptions e m)) i = false).
Proof.
  intros e body m.
  assert (G : exists extra, subset extra (enables body) /\ exec (Guarded e body) m = N.lor m extra).
  { exists (N.ldiff (exec body (N.ldiff m e)) m). split.
    - intros i H. rewrite N.ldiff_spec in H. apply andb_prop in H as [H H']. apply exec_subset in H.
      rewrite N.lor_spec, N.ldiff_spec in H. destruct (N.testbit m i); [discriminate|exact H].
    - cbn [exec fst enableFloatingPointExceptions disableFloatingPointExceptions feenableexcept fedisableexcept].
      apply N.bits_inj. intros i. rewrite !N.lor_spec, N.ldiff_spec. destruct (N.testbit m i); cbn [negb]; rewrite ?orb_true_r, ?andb_true_r, ?orb_false_r; reflexivity. }
  split; [|split; [exact G|]].
  - intros Z. destruct G as (x & S & ->). rewrite Z in S. apply N.bits_inj. intros i. rewrite N.lor_spec.
    destruct (N.testbit x i) eqn:X; [|apply orb_false_r]. apply S in X. rewrite N.bits_0 in X. discriminate.
  - intros i H. cbn. rewrite N.ldiff_spec, H. apply andb_false_r.
Qed.
Print Assumptions C63_guard.
(** C63: so the guard does not revert an exception that is enabled inside the block. *)
Theorem C63_guard_refuted : exists e body m, exec (Guarded e body) m <> m.
Proof. exists 0%N, (Enable 4), 1%N. vm_compute. discriminate. Qed.
Print Assumptions C63_guard_refuted.
Example C63_case_guard : exec (Seq (Guarded 5 (Seq (Guarded 8 Other) (Disable 1))) (Enable 2)) 13 = 15%N.
Proof. vm_compute. reflexivity. Qed.

(** C63: the error handler which runs is the last one that was set, std::abort before any is set; setting a null handler
    runs the current one. *)
Theorem C63_error_handler : forall returns hs,
  let set_all := fold_left (fun s h => s' <- s ;; setErrorHandler returns (Some h) s') in
  exists s, set_all hs (Ok None) = Ok s /\
    callErrorHandler s = match rev hs with [] => StdAbort | f :: _ => Ran f end /\
    forall s', setErrorHandler returns None s = Ok s' ->
      (exists f, callErrorHandler s = Ran f /\ returns f = true) /\ callErrorHandler s' = StdAbort.
Proof.
  intros returns hs set_all.
  assert (E : set_all hs (Ok None) = Ok (match rev hs with [] => None | f :: _ => Some (Some f) end)).
  { unfold set_all. induction hs as [|h hs IH] using rev_ind; [reflexivity|].
    rewrite fold_left_app, IH, rev_app_distr. reflexivity. }
  eexists. split; [exact E|]. destruct (rev hs) as [|f r].
  - split; [reflexivity|]. intros s' H. discriminate H.
  - split; [reflexivity|]. intros s' H. unfold setErrorHandler in H. cbn in H. destruct (returns f) eqn:R; [|discriminate].
    injection H as <-. split; [exists f; split; [reflexivity|exact R]|reflexivity].
Qed.
Print Assumptions C63_error_handler.
