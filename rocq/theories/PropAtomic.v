(** emplaceBackAtomic under every schedule (C27). *)
From Coq Require Import List Arith Lia Bool Permutation.
From Verif Require Import Base BaseProofs Mem BufferManip AoA AoASpec PropAoA Conc Atomic.
From Verif Require AoAProofs4 AoALayout AtomicProofs.
Import ListNotations.
Set Implicit Arguments.

(** The values a thread emplaces into array [i]. *)
Fixpoint values_for {V} (i : nat) (q : list (nat * V)) : list V :=
  match q with [] => [] | (j, v) :: q' => if Nat.eq_dec j i then v :: values_for i q' else values_for i q' end.
(** Array [i] has room for all of them. *)
Definition roomy {V} (M : list (list V)) (K : list nat) (calls : list (list (nat * V))) : Prop :=
  forall i r k, nth_error M i = Some r -> nth_error K i = Some k -> length r + length (concat (map (values_for i) calls)) <= k.
Definition valid_calls {V} (n : nat) (calls : list (list (nat * V))) : Prop := Forall (Forall (fun c => fst c < n)) calls.

Section Help.
Variable V : Type.
Lemma values_mine i (q : list (nat * V)) : AtomicProofs.mine i q = values_for i q.
Proof.
  unfold AtomicProofs.mine. induction q as [|[j v] q IH]; auto. simpl. destruct (Nat.eqb_spec j i), (Nat.eq_dec j i); try contradiction; simpl; rewrite ?IH; reflexivity.
Qed.
Lemma values_all i (calls : list (list (nat * V))) : flat_map (AtomicProofs.mine i) calls = concat (map (values_for i) calls).
Proof. rewrite flat_map_concat_map. f_equal. apply map_ext. intros q. apply values_mine. Qed.
Lemma driven_arep chk tv (dflt : V) n0 cap0 h M a : vec_run dflt h (repeat [] n0) = Some M -> driven chk tv dflt n0 cap0 h = Ok a ->
  AoAProofs4.arep tv true (fun _ : V => tt) a M (cap_run dflt h (repeat [] n0) (repeat cap0 n0)).
Proof.
  intros H E. pose proof (driven_rep chk tv dflt n0 cap0 h) as D. rewrite H, E in D.
  destruct D as [(a' & E' & R)|[_ E']]; [|discriminate]. injection E' as <-. exact R.
Qed.
Lemma exec_arep chk tv (a : aoa V unit) M K calls sched : AoAProofs4.arep tv true (fun _ : V => tt) a M K ->
  valid_calls (length M) calls -> roomy M K calls ->
  exists a' ths, exec (emplace_step chk tv) sched a (start calls) = Ok (a', ths) /\ AtomicProofs.inv tv M K calls a' ths.
Proof.
  intros R Vc Rm. assert (Rm' : forall i r k, nth_error M i = Some r -> nth_error K i = Some k -> length r + length (flat_map (AtomicProofs.mine i) calls) <= k).
  { intros i r k Nr Nk. rewrite values_all. eapply Rm; eauto. }
  destruct (@AtomicProofs.exec_inv V unit chk tv M K calls Rm' sched a (start calls) (AtomicProofs.start_inv R Vc)) as ([a' ths] & E & I).
  exists a', ths. auto.
Qed.
End Help.

(** C27: for every history which built the arrays, all threads, all their calls and every schedule: no step ends in
    an error or undefined behaviour, at any time all the elements from before can be read and are unchanged, and
    when the threads have finished array [i] is the array from before followed by all the values emplaced into it,
    each exactly once. *)
Theorem C27_emplaceBackAtomic : forall V (dflt : V) chk tv n0 cap0 h M a calls sched,
  vec_run dflt h (repeat [] n0) = Some M -> driven chk tv dflt n0 cap0 h = Ok a ->
  valid_calls (length M) calls -> roomy M (cap_run dflt h (repeat [] n0) (repeat cap0 n0)) calls ->
  exists a' ths, exec (emplace_step chk tv) sched a (start calls) = Ok (a', ths) /\
    (forall i r j v, nth_error M i = Some r -> nth_error r j = Some v -> aoa_at chk a' i j = Ok v) /\
    (finished ths -> exists M', displays chk a' M' /\ length M' = length M /\
       forall i r, nth_error M i = Some r -> exists new, nth_error M' i = Some (r ++ new) /\
         Permutation new (concat (map (values_for i) calls))).
Proof.
  intros V dflt chk tv n0 cap0 h M a calls sched H E Vc Rm. pose proof (driven_arep chk tv dflt n0 cap0 h H E) as R.
  destruct (@exec_arep V chk tv a M _ calls sched R Vc Rm) as (a' & ths & Ex & I).
  exists a', ths. split; [exact Ex|]. split.
  - intros i r j v Nr Nv. exact (AtomicProofs.inv_rows chk I Nr Nv).
  - intros Fn. assert (El : length M = length (cap_run dflt h (repeat [] n0) (repeat cap0 n0))).
    { destruct R as (L & _ & <- & <-). rewrite !map_length. reflexivity. }
    destruct (@AtomicProofs.fin_inv V unit tv tt true a' M _ calls ths El I Fn) as (M' & R' & El' & Hn).
    exists M'. split; [exact (rep_displays chk R')|]. split; [exact El'|]. intros i r Nr. destruct (Hn i r Nr) as (new & N1 & N2). exists new. rewrite <- values_all. auto.
Qed.
Print Assumptions C27_emplaceBackAtomic.

(** Nothing blocks: a schedule which runs every thread for three steps per call finishes them all. *)
Theorem C27_finishes : forall V W chk tv (a a' : aoa V W) calls sched ths,
  exec (emplace_step chk tv) sched a (start calls) = Ok (a', ths) ->
  (forall t q, nth_error calls t = Some q -> 3 * length q <= count_occ Nat.eq_dec sched t) -> finished ths.
Proof.
  intros V W chk tv a a' calls sched ths E Hc. apply AtomicProofs.exec_todo in E. destruct E as [El H].
  apply Forall_forall. intros th Ht. apply In_nth_error in Ht. destruct Ht as [t Nt].
  assert (Lt : t < length calls) by (assert (t < length ths) by (apply nth_error_Some; congruence); unfold start in El; rewrite map_length in El; lia).
  destruct (nth_error calls t) as [q|] eqn:Nq; [|apply nth_error_None in Nq; lia].
  assert (Ns : nth_error (start calls) t = Some (Outside, q)) by (unfold start; rewrite nth_error_map, Nq; reflexivity).
  destruct (H t _ Ns) as (th' & N' & Et). assert (th' = th) by congruence. subst th'.
  specialize (Hc t q Nq). unfold AtomicProofs.todo in Et. cbn [fst snd] in Et. destruct th as [[|i v o|i v o k] [|c q']]; cbn [fst snd length] in Et; try lia. reflexivity.
Qed.
Print Assumptions C27_finishes.

(** The promise of room is necessary. Without LVARRAY_BOUNDS_CHECK a call too many constructs its value over the
    first element of the next array; with it the error handler runs. *)
Theorem C27_without_room : exists (h : list (acall nat)) calls sched,
  (a <- driven false true 0 2 1 h ;; '(a', _) <- exec (emplace_step false true) sched a (start calls) ;; aoa_at false a' 1 0) = Ok 8 /\
  (a <- driven false true 0 2 1 h ;; aoa_at false a 1 0) = Ok 5 /\
  (a <- driven true true 0 2 1 h ;; exec (emplace_step true true) sched a (start calls)) = Abort.
Proof.
  exists [AEmplaceBack 1 5], [[(0, 7)]; [(0, 8)]], [0; 1; 0; 1; 0; 1]. vm_compute. auto.
Qed.
Print Assumptions C27_without_room.

Definition ah : list (acall nat) := [AEmplaceBack 0 1; AEmplaceBack 1 2].
Definition acalls : list (list (nat * nat)) := [[(0, 10); (1, 11)]; [(0, 20); (0, 21)]; []].
Example C27_case :
  valid_calls 2 acalls /\ roomy [[1]; [2]] (cap_run 0 ah (repeat [] 2) (repeat 4 2)) acalls /\
  (a <- driven true false 0 2 4 ah ;;
   '(a', ths) <- exec (emplace_step true false) [1; 0; 1; 0; 1; 0; 1; 0; 0; 1; 0; 2; 5; 1; 1] a (start acalls) ;;
   x <- aoa_at true a' 0 1 ;; y <- aoa_at true a' 0 2 ;; z <- aoa_at true a' 0 3 ;; u <- aoa_at true a' 1 1 ;; Ok (ths, [x; y; z; u])) =
  Ok ([(Outside, []); (Outside, []); (Outside, [])], [20; 10; 21; 11]).
Proof.
  split; [repeat constructor; simpl; lia|]. split; [|vm_compute; reflexivity].
  intros i r k N1 N2. destruct i as [|[|[|i]]]; vm_compute in N1, N2; try discriminate; injection N1 as <-; injection N2 as <-; simpl; lia.
Qed.
