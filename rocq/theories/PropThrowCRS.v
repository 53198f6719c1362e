(** Property C85: what an exception leaves of a CRSMatrix. Statements use CRSSpec, ThrowSortedSpec and ThrowCRSSpec only besides
    the modelled functions. *)
From Coq Require Import List Arith ZArith Lia Bool Sorting.Sorted.
From Verif Require Import Base Mem BufferManip SortedSpec SortedArray SortedArraySpec AoA AoASpec AoS AoSSpec Sparsity SparsitySpec CRS CRSSpec.
From Verif Require Import Throw ThrowAoASpec ThrowSorted ThrowSortedSpec ThrowSets ThrowCRS ThrowCRSSpec PropCRS.
From Verif Require BaseProofs AoALayout AoAProofs SortedProofs SortedProofs2 SetsProofs SetsProofs2 SparsityProofs CRSProofs2 CRSProofs4 ThrowProofs ThrowAoAProofs
  ThrowAoAProofs5 ThrowSortedProofs2 ThrowSetsProofs3 ThrowCRSProofs3 ThrowCRSProofs4 ThrowCRSProofs5.
Import ListNotations.
Set Implicit Arguments.
Unset Strict Implicit.

Notation mdtor chk p := (crs_dtor chk false BMalloc p).

Section Vocabulary.
Variable W : Type.
Variable chk : bool.
(** The numbers of rows, columns and non-zeros, the columns and their entries are those of [M]. *)
Definition reads (p : pattern W) (M : list (list (Z * W))) (nc : nat) : Prop :=
  ncols p = nc /\ numArrays (rows p) = length M /\
  (forall i r, nth_error M i = Some r -> numNonZeros chk p i = Ok (length r)) /\
  (forall i r j e, nth_error M i = Some r -> nth_error r j = Some e -> column chk p i j = Ok (fst e) /\ entry chk p i j = Ok (snd e)).
Definition sound (p : pattern W) (M : list (list (Z * W))) (nc : nat) : Prop :=
  mdtor chk p = Ok tt /\ reads p M nc /\
  forall i l c, nth_error M i = Some l -> sp_empty chk p i c = Ok (negb (holds_col l c)).
(** When it is corrupt: the other rows and the non-zeros before the gap can still be read. *)
Definition left_behind (s : state_left) (p : pattern W) (M : list (list (Z * W))) (nc : nat) (g : nat * nat) : Prop :=
  match s with
  | Usable => sound p M nc
  | Forgets => mdtor chk p = Fault FLeak /\ reads p M nc
  | Corrupt => mdtor chk p = Fault FDestroy /\ ncols p = nc /\ numArrays (rows p) = length M /\
      (forall i r, nth_error M i = Some r -> numNonZeros chk p i = Ok (length r)) /\
      (forall i r j e, nth_error M i = Some r -> nth_error r j = Some e -> i <> fst g \/ j < snd g ->
         column chk p i j = Ok (fst e) /\ entry chk p i j = Ok (snd e))
  end.
End Vocabulary.

Section Help.
Variable W : Type.
Variable add : W -> W -> W.
Variable zero : W.
Variable chk : bool.
Variable cmax : Z.
Notation lrep := (@ThrowCRSProofs3.lrep W).
Lemma lrep_sound p M nc : lrep p (M, nc) -> sound chk p M nc.
Proof.
  intros R. pose proof (ThrowCRSProofs3.lrep_mrep add zero R) as MR. pose proof (mrep_shows chk MR) as (E & N & S).
  pose proof R as (_ & _ & _ & F & _). cbn [fst] in F.
  assert (K : forall i l, nth_error M i = Some l -> numNonZeros chk p i = Ok (length l) /\
     (forall j e, nth_error l j = Some e -> column chk p i j = Ok (fst e) /\ entry chk p i j = Ok (snd e)) /\
     (forall c, exists b, sp_empty chk p i c = Ok b /\ (b = true <-> ~ has (fun e => In e l) c))).
  { intros i l Nl. destruct (S i (fun e => In e l)) as (l' & I' & H' & _ & Hn & Hr & He); [unfold as_maps; rewrite nth_error_map, Nl; reflexivity|].
    assert (l = l') as <-.
    { apply (ThrowCRSProofs3.line_unique); [rewrite Forall_forall in F; apply F; eapply nth_error_In; eauto|apply CRSProofs2.keys_incr; exact I'|].
      intros x. symmetry. apply H'. }
    split; [exact Hn|]. split; [|exact He]. intros j [c w] Nj. exact (Hr j c w Nj). }
  split; [exact (CRSProofs4.mdtor chk MR)|]. split.
  - split; [exact E|]. split; [rewrite N; apply map_length|]. split.
    + intros i r Nr. exact (proj1 (K i r Nr)).
    + intros i r j e Nr Nj. exact (proj1 (proj2 (K i r Nr)) j e Nj).
  - intros i l c Nl. destruct (proj2 (proj2 (K i l Nl)) c) as (b & Eb & Hb). rewrite Eb. f_equal. apply eq_true_iff_eq. rewrite Hb, negb_true_iff.
    unfold holds_col. rewrite <- not_true_iff_false, existsb_exists. split; intros Q; contradict Q.
    + destruct Q as ([c' w] & Hx & Ex). apply Z.eqb_eq in Ex. cbn in Ex. subst. exists w. exact Hx.
    + destruct Q as [w Hw]. exists (c, w). split; [exact Hw|apply Z.eqb_refl].
Qed.
Lemma left_behind_c st (t : pattern W) (M : list (list (Z * W))) (nc : nat) (g : nat * nat) : ThrowCRSProofs4.left_c chk st t M nc g -> left_behind chk st t M nc g.
Proof. destruct st; cbn; auto. apply lrep_sound. Qed.
Lemma new_lrep nr nc cap : (Z.of_nat nc - 1 <= cmax)%Z -> exists p, new_sp W chk false true BMalloc cmax nr nc cap = Ok p /\ lrep p (repeat [] nr, nc).
Proof.
  intros C. destruct (@CRSProofs4.new_mrep W chk false cmax nr nc cap) as (p & Ep & R); [apply Z.ltb_ge; auto|]. exists p. split; [exact Ep|].
  eapply ThrowCRSProofs3.mrep_lrep; [exact R| |].
  - unfold as_maps. clear. induction nr; simpl; constructor; auto. intros x. unfold none. tauto.
  - apply Forall_forall. intros l Hl. apply repeat_spec in Hl. subst. constructor.
Qed.
Lemma run_lrep h : forall p st st' t, lrep p st -> obeys add zero cmax h st -> rows_run add zero cmax h st = Some st' ->
  crun chk false BMalloc cmax add zero h p = Ok t -> lrep t st'.
Proof.
  induction h as [|c h IH]; intros p [M nc] st' t R F E Et; cbn [rows_run crun obeys] in *; [injection E as <-; injection Et as <-; exact R|].
  destruct F as [Al F]. destruct (rows_after add zero cmax c (M, nc)) as [st1|] eqn:E1; [|discriminate].
  destruct (ThrowCRSProofs3.cstep_lrep chk R Al E1) as [([a1 r] & Ea & R1)|[_ Ea]]; rewrite Ea in Et; [|discriminate].
  cbn [bind fst] in *. eapply IH; eauto.
Qed.
Lemma cdriven_lrep nr nc cap h st p : (Z.of_nat nc - 1 <= cmax)%Z -> obeys add zero cmax h (repeat [] nr, nc) ->
  rows_run add zero cmax h (repeat [] nr, nc) = Some st -> cdriven add zero chk false cmax nr nc cap h = Ok p -> lrep p st.
Proof.
  intros C F E D. unfold cdriven in D. destruct (new_lrep nr cap C) as (p0 & E0 & R0). rewrite E0 in D. cbn [bind] in D.
  eapply run_lrep; eauto.
Qed.
End Help.

(** C85: one call on a CRSMatrix< T >, T not trivially copyable, that any history produced, the (n+1)-th copy, assignment or
    addition of an entry throwing. With enough budget it is the call of C32; otherwise the state left is the one specified. The
    moves of unused capacity found with C24 are the only other outcome. *)
Theorem C85_call : forall W (add : W -> W -> W) zero chk cmax nr nc cap h M nc' p c M' nc'' n, (Z.of_nat nc - 1 <= cmax)%Z ->
  obeys add zero cmax h (repeat [] nr, nc) -> rows_run add zero cmax h (repeat [] nr, nc) = Some (M, nc') ->
  cdriven add zero chk false cmax nr nc cap h = Ok p ->
  callowed false c (as_maps M, nc') -> rows_after add zero cmax c (M, nc') = Some (M', nc'') ->
  (cstep chk false BMalloc cmax add zero c p = Fault FMove /\ x_cstep chk false cmax add zero n c p = XFault FMove) \/
  (ccost c M <= n -> exists p' r, x_cstep chk false cmax add zero n c p = XOk (n - ccost c M) (p', r) /\
     cstep chk false BMalloc cmax add zero c p = Ok (p', r) /\ sound chk p' M' nc'') /\
  (n < ccost c M -> exists t, x_cstep chk false cmax add zero n c p = XThrow Element t /\
     left_behind chk (cleft c M n) t (shown add c M n) nc' (cgap c M n)).
Proof.
  intros W add zero chk cmax nr nc cap h M nc' p c M' nc'' n C F H E Al Y. pose proof (cdriven_lrep C F H E) as R.
  pose proof (ThrowCRSProofs5.x_cstep_ok chk n R Al Y) as S.
  pose proof (@ThrowCRSProofs3.sim_cstep W chk false cmax add zero n c p) as SM.
  destruct S as [S|[_ EF]]; [right|left; rewrite EF in SM; auto].
  destruct (x_cstep chk false cmax add zero n c p) as [n' [p' r]|w t|f]; cbn [ThrowProofs.xspec] in S; [| |contradiction].
  - destruct S as (-> & E' & R'). split; [|lia]. intros _. exists p', r. rewrite Nat.add_sub. split; [reflexivity|]. split; [exact E'|].
    exact (lrep_sound add zero chk R').
  - destruct S as (-> & Ln & LA). split; [lia|]. intros _. exists t. split; [reflexivity|]. exact (left_behind_c add zero LA).
Qed.
Print Assumptions C85_call.

(** C85: the rows of the specification are those of C32. *)
Theorem C85_contents : forall W (add : W -> W -> W) zero cmax tw c M nc, Forall (fun l => increasing Z.ltb (map fst l)) M ->
  callowed tw c (as_maps M, nc) ->
  match rows_after add zero cmax c (M, nc), mat_step add zero cmax c (as_maps M, nc) with
  | Some (M', nc'), Some (N, nc'') => nc' = nc'' /\ Forall2 (fun l S => increasing Z.ltb (map fst l) /\ forall e, In e l <-> S e) M' N
  | None, None => True
  | _, _ => False
  end.
Proof.
  intros W add zero cmax tw c M nc F Al.
  assert (F' : Forall (fun l => StronglySorted (fun x y => (fst x <? fst y)%Z = true) l) M).
  { eapply Forall_impl; [|exact F]. intros l Hl. apply CRSProofs2.keys_incr. exact Hl. }
  destruct (rows_after add zero cmax c (M, nc)) as [[M' nc']|] eqn:E.
  - destruct (ThrowCRSProofs3.rows_after_step F' Al E) as (N & -> & Q & I). split; [reflexivity|]. clear E. revert N Q.
    induction I as [|l M1 Hl I IH]; intros N Q; inversion Q; subst; constructor; auto.
    split; [apply (SortedProofs.increasing_strong Z.ltb); apply (SortedProofs2.map_key_incr Z.ltb fst); exact Hl|].
    intros e. match goal with H : forall z, _ <-> _ |- _ => symmetry; apply H end.
  - destruct (ThrowCRSProofs3.rows_after_none add zero cmax c M nc) as [H _]. rewrite (H E). exact I.
Qed.
Print Assumptions C85_contents.

(** C85: a program that catches every exception and goes on while the matrix is usable. *)
Theorem C85_program : forall W (add : W -> W -> W) zero chk cmax nr nc cap h M nc' s, (Z.of_nat nc - 1 <= cmax)%Z ->
  keeps_rules add zero cmax h (repeat [] nr, nc) -> cfate add zero cmax h (repeat [] nr, nc) = Some (M, nc', s) ->
  exists p, new_sp W chk false true BMalloc cmax nr nc cap = Ok p /\
    ((exists t, x_crun chk false cmax add zero h p = Ok t /\
        match s with
        | Usable => sound chk t M nc'
        | Forgets => mdtor chk t = Fault FLeak /\ reads chk t M nc'
        | Corrupt => mdtor chk t = Fault FDestroy
        end) \/
     x_crun chk false cmax add zero h p = Fault FMove).
Proof.
  intros W add zero chk cmax nr nc cap h M nc' s C F E. destruct (@new_lrep W chk cmax nr nc cap C) as (p & Ep & R). exists p. split; [exact Ep|].
  destruct (ThrowCRSProofs5.x_crun_ok chk R F E) as [(t & Et & S)|[_ Y]]; [left|right; exact Y].
  exists t. split; [exact Et|]. destruct s; cbn in S; auto. exact (lrep_sound add zero chk S).
Qed.
Print Assumptions C85_program.

(** C85: until something is thrown the call does exactly what the call of C32 does, and an error handler that throws is called
    exactly when the one of C32 is: any matrix, any arguments, any T. *)
Theorem C85_until_thrown : forall W (add : W -> W -> W) zero chk tw cmax n c p,
  match x_cstep chk tw cmax add zero n c p with
  | XOk _ r => cstep chk tw BMalloc cmax add zero c p = Ok r
  | XThrow Error _ => cstep chk tw BMalloc cmax add zero c p = Abort
  | XThrow Element _ => True
  | XFault f => cstep chk tw BMalloc cmax add zero c p = Fault f
  end.
Proof. intros. apply ThrowCRSProofs3.sim_cstep. Qed.
Print Assumptions C85_until_thrown.

(** C85: insertNonZeros of the view, into a row with room for the columns. *)
Theorem C85_view : forall W (add : W -> W -> W) zero chk cmax nr nc cap h M nc' p i l k ws M' n, (Z.of_nat nc - 1 <= cmax)%Z ->
  obeys add zero cmax h (repeat [] nr, nc) -> rows_run add zero cmax h (repeat [] nr, nc) = Some (M, nc') ->
  cdriven add zero chk false cmax nr nc cap h = Ok p ->
  nth_error M i = Some l -> nonZeroCapacity chk p i = Ok k ->
  let c := CInserts i ws in
  callowed false c (as_maps M, nc') -> rows_after add zero cmax c (M, nc') = Some (M', nc') ->
  length l + ccost c M <= k ->
  (ccost c M <= n -> exists p', x_crs_v_insertNonZeros chk false n p i (map fst ws) (map snd ws) = XOk (n - ccost c M) (p', ccost c M) /\
     crs_v_insertNonZeros chk false p i (map fst ws) (map snd ws) = Ok (p', ccost c M) /\
     sound chk p' M' nc' /\ nonZeroCapacity chk p' i = Ok k) /\
  (n < ccost c M -> exists t, x_crs_v_insertNonZeros chk false n p i (map fst ws) (map snd ws) = XThrow Element t /\
     left_behind chk (cleft c M n) t M nc' (cgap c M n)).
Proof.
  intros W add zero chk cmax nr nc cap h M nc' p i l k ws M' n C F H E N Ck c Al Y HC. pose proof (cdriven_lrep C F H E) as R.
  destruct (@ThrowCRSProofs5.x_view_ok W chk cmax add zero p M nc' i l k ws M' n R N Ck Al Y HC) as [S1 S2]. split.
  - intros Hn. destruct (S1 Hn) as (p' & Ex & Ev & R' & K'). exists p'. split; [exact Ex|]. split; [exact Ev|]. split; [exact (lrep_sound add zero chk R')|exact K'].
  - intros Hn. destruct (S2 Hn) as (t & Ex & LA). exists t. split; [exact Ex|]. exact (left_behind_c add zero LA).
Qed.
Print Assumptions C85_view.

(** C85: an error handler that throws (system.hpp:68), bounds checks on: a row which does not exist or a number of columns too
    large leaves the matrix as it was. *)
Theorem C85_errors : forall W (add : W -> W -> W) zero cmax nr nc cap h M nc' p c n, (Z.of_nat nc - 1 <= cmax)%Z ->
  obeys add zero cmax h (repeat [] nr, nc) -> rows_run add zero cmax h (repeat [] nr, nc) = Some (M, nc') ->
  cdriven add zero true false cmax nr nc cap h = Ok p ->
  callowed false c (as_maps M, nc') -> rows_after add zero cmax c (M, nc') = None ->
  x_cstep true false cmax add zero n c p = XThrow Error p.
Proof.
  intros W add zero cmax nr nc cap h M nc' p c n C F H E Al Y. pose proof (cdriven_lrep C F H E) as R.
  exact (ThrowCRSProofs5.x_cstep_error n eq_refl R Al Y).
Qed.
Print Assumptions C85_errors.

Definition x_cdrive {W} (add : W -> W -> W) (zero : W) (chk : bool) (cmax : Z) (nr nc cap : nat) (h : list (nat * ccall W)) : outcome (pattern W) :=
  p <- new_sp W chk false true BMalloc cmax nr nc cap ;; x_crun chk false cmax add zero h p.
(** An insertion that fails, half a setValues, half an addToRow, then one of a column which is there already. The column of a
    failed insertion is written before its entry is built. *)
Definition i1 : nat * ccall Z := (9, CInserts 1 [(5, 50); (7, 70)]%Z).
Definition h1 : list (nat * ccall Z) :=
  [i1; (0, CInsert 1 8%Z 80%Z); (1, CSetValues 3%Z); (1, CAdd 1 [(5, 1); (7, 1)]%Z); (0, CInsert 1 5%Z 99%Z)].
Example C85_case :
  let f h := cfate Z.add 0%Z 100 h ([[]; []], 9) in
  let d h := p <- x_cdrive Z.add 0%Z true 100 2 9 3 h ;; Ok (skipn 3 (vals (rows p)), skipn 3 (ents (rows p))) in
  let h2 := [i1; (0, CInsert 1 6%Z 60%Z); (9, CZero)] in
  let h3 := [(9, CInsert 1 5%Z 50%Z); (1, CInserts 1 [(1, 10); (8, 80)]%Z)] in
  let h4 := [(9, CInsert 1 5%Z 50%Z); (1, CInserts 1 [(7, 70); (8, 80)]%Z)] in
  f h1 = Some ([[]; [(5, 4); (7, 70)]]%Z, 9, Usable) /\ d h1 = Ok ([Obj 5; Obj 7; Obj 8]%Z, [Obj 4; Obj 70; Raw]%Z) /\
  f h2 = Some ([[]; [(5, 50); (7, 70)]]%Z, 9, Corrupt) /\ d h2 = Ok ([Obj 5; Obj 6; Obj 7]%Z, [Obj 50; Raw; Obj 70]%Z) /\
  f h3 = Some ([[]; [(5, 50)]]%Z, 9, Corrupt) /\ f h4 = Some ([[]; [(5, 50)]]%Z, 9, Forgets).
Proof. vm_compute. repeat split; reflexivity. Qed.
Example C85_case_rules : keeps_rules Z.add 0%Z 100 h1 ([[]; []], 9).
Proof.
  unfold h1. cbn -[callowed as_maps]. repeat split; try (apply (SortedProofs.increasing_strong Z.ltb); repeat constructor);
    try (repeat constructor; unfold in_range; simpl; lia); try (unfold in_range; simpl; lia).
  intros S c N I. cbn in N. injection N as <-. cbn in I. destruct I as [<-|[<-|[]]]; eexists; simpl; eauto.
Qed.
(** insertNonZeros of a view, the second entry from the right throwing; rows and numbers of columns that are rejected. *)
Example C85_view_case :
  match cdriven Z.add 0%Z true false 100 2 9 3 [CInsert 1 4%Z 40%Z] with
  | Ok p =>
      nonZeroCapacity true p 1 = Ok 3 /\
      match x_crs_v_insertNonZeros true false 1 p 1 [5; 6]%Z [50; 60]%Z with XThrow Element t => Some (skipn 3 (ents (rows t))) | _ => None end =
        Some [Obj 40; Raw; Obj 60]%Z /\
      cleft (CInserts 1 [(5, 50); (6, 60)]%Z) [[]; [(4, 40)%Z]] 1 = Forgets /\
      x_cstep true false 100 Z.add 0%Z 0 (CInsert 2 4%Z 1%Z) p = XThrow Error p /\
      x_cstep true false 100 Z.add 0%Z 0 (CResize 2 102 0) p = XThrow Error p
  | _ => False
  end.
Proof. vm_compute. repeat split; reflexivity. Qed.
