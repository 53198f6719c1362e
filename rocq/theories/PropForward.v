(** C53: ArrayOfArrays::resizeArray with constructor arguments given as an rvalue. *)
From Coq Require Import List Arith ZArith Lia Bool.
From Verif Require Import Base BaseProofs Mem BufferManip AoA AoASpec Forward ForwardProofs PropAoA.
From Verif Require AoALayout AoAProofs AoAProofs4.
Import ListNotations.

(** In the state after any history: whatever is left in an object after something is constructed from it
    ([mv]), the new elements are [v], [mv v], [mv (mv v)], ... and the caller's object is left with the
    next one. The rest of the array is unchanged. As in C22 growing a row of a non-trivial T beyond its capacity needs that no row has
    unused capacity. *)
Theorem C53_forwarded : forall V (dflt : V) (mv : V -> V) chk tv n0 cap0 h M a i r n v,
  vec_run dflt h (repeat [] n0) = Some M -> driven chk tv dflt n0 cap0 h = Ok a -> nth_error M i = Some r ->
  (let K := cap_run dflt h (repeat [] n0) (repeat cap0 n0) in tv = true \/ full M K = true \/ n <= nth i K 0) ->
  exists a', resizeArray_fwd mv chk tv true false BMalloc a i n v = Ok (a', Nat.iter (n - length r) mv v) /\
    displays chk a' (put_at M i (firstn n r ++ map (fun j => Nat.iter j mv v) (seq 0 (n - length r)))).
Proof.
  intros V dflt mv chk tv n0 cap0 h M a i r n v H E N C. cbn zeta in C. pose proof (driven_rep chk tv dflt n0 cap0 h) as D. rewrite H in D.
  destruct D as [(a1 & E1 & R)|[_ F]]; [|congruence]. rewrite E in E1. injection E1 as <-.
  set (K := cap_run dflt h (repeat [] n0) (repeat cap0 n0)) in *. destruct R as (L & A & EM & EK). subst M. rewrite <- EK in C.
  destruct (AoAProofs4.row_at N) as (A1 & k & B & -> & <-).
  pose proof (@resizeArray_fwd_ok V unit mv chk tv true (fun _ => tt) a A1 r k B n v A) as [(x & Ex & Ax & Sx)|[F _]].
  - destruct x as [a' v']. cbn [fst snd] in *. subst v'. exists a'. split; [exact Ex|].
    eapply rep_displays. apply AoAProofs4.rep_put with (k' := Nat.max (length r + k) n - n). exact Ax.
  - exfalso. apply orb_false_iff in F. destruct F as [F F3]. apply orb_false_iff in F. destruct F as [F1 F2]. unfold AoAProofs.allt in F1. cbn in F1. rewrite andb_true_r in F1.
    destruct C as [C|[C|C]].
    + congruence.
    + rewrite AoAProofs4.full_nogap in C. congruence.
    + apply Nat.leb_gt in F3. rewrite map_app in C. cbn [map] in C. rewrite app_nth2 in C by (rewrite map_length; lia). rewrite map_length, Nat.sub_diag in C. cbn in C. unfold AoALayout.wid in C. cbn in C. lia.
Qed.
Print Assumptions C53_forwarded.

(** So the documented meaning - every new element is constructed from the argument - holds for lvalues and
    for types whose objects keep their value, and for at most one new element; it fails for every other
    value of a type with a move constructor as soon as there are two new elements. *)
Theorem C53_as_documented : forall V (mv : V -> V) (v : V) (r : list V) n,
  firstn n r ++ map (fun j => Nat.iter j mv v) (seq 0 (n - length r)) = resized_to r n v <-> (n <= length r + 1 \/ mv v = v).
Proof.
  intros V mv v r n. unfold resized_to. split.
  - intros H. apply app_inv_head in H. destruct (Nat.le_gt_cases n (length r + 1)) as [|G]; [left; assumption|right].
    destruct (n - length r) as [|[|k]] eqn:Ek; [lia|lia|]. cbn in H. injection H. intros _ X. exact X.
  - intros [H|H]; f_equal.
    + destruct (n - length r) as [|[|k]] eqn:Ek; [reflexivity|reflexivity|lia].
    + generalize (n - length r). intros k. assert (I : forall j, Nat.iter j mv v = v) by (induction j as [|j IH]; [reflexivity|change (mv (Nat.iter j mv v) = v); rewrite IH; exact H]).
      rewrite <- (seq_length k 0) at 2. induction (seq 0 k) as [|j l IH]; [reflexivity|]. cbn [map length repeat]. rewrite I, IH. reflexivity.
Qed.
Print Assumptions C53_as_documented.

(** Lists of numbers as strings; a moved-from string is empty. *)
Example C53_case :
  (a <- driven true false [] 1 0 [AEmplaceBack 0 [1]] ;;
   '(a', x) <- resizeArray_fwd (fun _ => []) true false true false BMalloc a 0 4 [5; 6] ;;
   p <- aoa_at true a' 0 0 ;; q <- aoa_at true a' 0 1 ;; s <- aoa_at true a' 0 2 ;; t <- aoa_at true a' 0 3 ;; Ok ([p; q; s; t], x)) = Ok ([[1]; [5; 6]; []; []], []).
Proof. vm_compute. reflexivity. Qed.
Example C53_rvalue_refuted : exists (mv : list nat -> list nat) v r n,
  firstn n r ++ map (fun j => Nat.iter j mv v) (seq 0 (n - length r)) <> resized_to r n v.
Proof. exists (fun _ => []), [5], [], 2. vm_compute. discriminate. Qed.
