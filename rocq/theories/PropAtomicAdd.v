(** The addToRow functions with an atomic policy, under every schedule (C34). *)
From Coq Require Import List Arith ZArith Lia Bool Permutation.
From Verif Require Import Base BaseProofs Mem BufferManip SortedSpec SortedArraySpec AoA AoASpec AoS AoSSpec Sparsity SparsitySpec CRS CRSSpec
  PropCRS Conc AtomicAdd.
From Verif Require CRSProofs2 CRSProofs4 AtomicAddProofs.
Import ListNotations.
Set Implicit Arguments.

Section Spec.
Variable W : Type.
Variable add : W -> W -> W.
(** All that the threads add to row [i], thread by thread. *)
Definition adds_to (i : nat) (calls : list (list (rowcall W))) : list (Z * W) :=
  concat (map (@c_adds W) (filter (fun c => c_row c =? i) (concat calls))).
(** The row exists, all columns are in it; sorted without duplicates but for addToRowBinarySearchUnsorted. *)
Definition addable (M : list (row_map W)) (c : rowcall W) : Prop :=
  (exists S, nth_error M (c_row c) = Some S /\ forall x, In x (map fst (c_adds c)) -> has S x) /\
  (c_how c <> HUnsorted -> increasing Z.ltb (map fst (c_adds c))).
(** Every entry is its old value plus all which is added to it. *)
Definition all_sums (calls : list (list (rowcall W))) (M M' : list (row_map W)) : Prop :=
  length M' = length M /\
  forall i S S', nth_error M i = Some S -> nth_error M' i = Some S' ->
    forall c w', S' (c, w') <-> exists w, S (c, w) /\ w' = fold_left add (contributions (adds_to i calls) c) w.

Lemma adds_contrib i (calls : list (list (rowcall W))) : AtomicAddProofs.all_contrib i calls = adds_to i calls.
Proof.
  unfold AtomicAddProofs.all_contrib, adds_to, AtomicAddProofs.contrib, AtomicAddProofs.to_row.
  induction calls as [|q calls IH]; auto. simpl. rewrite IH, filter_app, map_app, concat_app. f_equal. clear.
  induction q as [|c q IH]; auto. simpl. rewrite IH. destruct (c_row c =? i); reflexivity.
Qed.
Lemma all_added_sums calls M : all_sums calls M (AtomicAddProofs.all_added add calls M).
Proof.
  split; [apply AtomicAddProofs.all_added_len|]. intros i S S' N N'. rewrite AtomicAddProofs.nth_all_added, N in N'. injection N' as <-.
  intros c w'. unfold added. cbn [fst snd]. rewrite adds_contrib. reflexivity.
Qed.
End Spec.

(** C34: every history which built the matrix, all threads and calls, every schedule: no step ends in an error or
    undefined behaviour, and once the threads have finished every entry has all its contributions, whatever their order.
    Of the addition only x + a + b = x + b + a is needed. *)
Theorem C34_atomic_adds : forall W add zero chk tw cmax nr nc cap (h : list (ccall W)) M nc' p calls sched,
  (forall w a b : W, add (add w a) b = add (add w b) a) ->
  (Z.of_nat nc - 1 <= cmax)%Z -> cvalid add zero tw cmax h (repeat none nr, nc) -> mat_run add zero cmax h (repeat none nr, nc) = Some (M, nc') ->
  cdriven add zero chk tw cmax nr nc cap h = Ok p -> Forall (Forall (addable M)) calls ->
  exists p' ths, exec (add_step chk tw add) sched p (add_start calls) = Ok (p', ths) /\
    (add_finished ths -> exists M', all_sums add calls M M' /\ cshows chk p' (M', nc') /\ crs_dtor chk tw BMalloc p' = Ok tt).
Proof.
  intros W add zero chk tw cmax nr nc cap h M nc' p calls sched Cm C V H E Ad.
  pose proof (@cdriven_rep W add zero chk tw cmax nr nc cap h C V) as D. rewrite H in D.
  destruct D as [(p0 & E0 & R)|[_ K]]; [|congruence]. assert (p0 = p) by congruence. subst p0.
  destruct (AtomicAddProofs.add_start_inv add R Ad) as (L0 & El & I).
  destruct (@AtomicAddProofs.add_exec_inv W chk tw add L0 M nc' calls El sched p (add_start calls) I) as ([p' ths] & Ex & I').
  exists p', ths. split; [exact Ex|]. intros Fn. exists (AtomicAddProofs.all_added add calls M).
  pose proof (AtomicAddProofs.add_fin Cm El R I' Fn) as R'. split; [apply all_added_sums|]. split; [exact (mrep_shows chk R')|exact (CRSProofs4.mdtor chk R')].
Qed.
Print Assumptions C34_atomic_adds.

(** A schedule with a step to enter and to leave each call and two for each addition finishes all the threads. *)
Theorem C34_finishes : forall W chk tw add (p p' : pattern W) calls sched ths,
  exec (add_step chk tw add) sched p (add_start calls) = Ok (p', ths) ->
  (forall t q, nth_error calls t = Some q -> list_sum (map (fun c => 2 + 2 * length (c_adds c)) q) <= count_occ Nat.eq_dec sched t) -> add_finished ths.
Proof.
  intros W chk tw add p p' calls sched ths E Hc.
  apply (@AtomicAddProofs.exec_measure (pattern W) _ (add_step chk tw add) AtomicAddProofs.add_todo) in E; [|intros; eapply AtomicAddProofs.add_todo_step; eauto].
  destruct E as [El H]. apply Forall_forall. intros th Ht. apply In_nth_error in Ht. destruct Ht as [t Nt].
  assert (Lt : t < length calls) by (assert (t < length ths) by (apply nth_error_Some; congruence); unfold add_start in El; rewrite map_length in El; lia).
  destruct (nth_error calls t) as [q|] eqn:Nq; [|apply nth_error_None in Nq; lia].
  assert (Ns : nth_error (add_start calls) t = Some (AIdle, q)) by (unfold add_start; rewrite nth_error_map, Nq; reflexivity).
  destruct (H t _ Ns) as (th' & N' & Et). assert (th' = th) by congruence. subst th'. specialize (Hc t q Nq).
  assert (Es : AtomicAddProofs.add_todo (AIdle, q) = list_sum (map (fun c => 2 + 2 * length (c_adds c)) q)).
  { unfold AtomicAddProofs.add_todo. cbn [fst snd]. clear. induction q as [|c q IH]; auto. simpl. simpl in IH. rewrite IH. unfold AtomicAddProofs.call_steps. lia. }
  rewrite Es in Et. clear Es. assert (Et0 : AtomicAddProofs.add_todo th = 0) by lia. clear Et. unfold AtomicAddProofs.add_todo in Et0. destruct th as [[|l adds|l pos v adds] [|c q']]; cbn in Et0; unfold AtomicAddProofs.call_steps in Et0; try lia. reflexivity.
Qed.
Print Assumptions C34_finishes.

Definition dh : list (ccall Z) := [CInserts 0 [(1, 10); (3, 30); (4, 40)]; CInserts 1 [(0, 5)]]%Z.
Definition dcalls : list (list (rowcall Z)) :=
  [[mkCall HAuto 0 [(1, 1); (3, 2)]; mkCall HUnsorted 0 [(4, 3); (1, 4); (4, 5)]]; [mkCall HBinary 0 [(3, 6); (4, 7)]; mkCall HLinear 1 [(0, 1)]]]%Z.
Definition dsched : list nat := concat (repeat [0; 1; 1; 0; 0] 10).
Example C34_case :
  (p <- cdriven Z.add 0%Z true true 9%Z 2 5 3 dh ;;
   '(p', ths) <- exec (add_step true true Z.add) dsched p (add_start dcalls) ;;
   a <- entry true p' 0 0 ;; b <- entry true p' 0 1 ;; c <- entry true p' 0 2 ;; d <- entry true p' 1 0 ;; Ok (ths, [a; b; c; d])) =
  Ok ([(AIdle, []); (AIdle, [])], [15; 38; 55; 6])%Z.
Proof. vm_compute. reflexivity. Qed.
Example C34_case_valid : cvalid Z.add 0%Z true 9%Z dh (repeat none 2, 5) /\
  exists M, mat_run Z.add 0%Z 9%Z dh (repeat none 2, 5) = Some (M, 5) /\ Forall (Forall (addable M)) dcalls.
Proof.
  split; [unfold dh; valid_matrix|]. eexists. split; [cbn; reflexivity|].
  unfold dcalls. repeat (apply Forall_cons || apply Forall_nil).
  all: split; [eexists; split; [reflexivity|]; intros x I; cbn in I; repeat (destruct I as [<-|I]; [has_col|]); destruct I
              |intros Nu; try (exfalso; apply Nu; reflexivity); apply (SortedProofs.increasing_strong Z.ltb); repeat constructor].
Qed.
