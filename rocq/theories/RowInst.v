(** RowTop.v for the members of ArrayOfArraysView, ArrayOfSetsView, SparsityPatternView and CRSMatrixView. *)
From Coq Require Import List Arith ZArith Lia Bool Sorted.
From Verif Require Import Base BaseProofs Mem MemProofs BufferManip AoA AoALayout Sorted SortedSpec AoS Sparsity CRS Conc Prog ProgProofs ViewProg ViewSim RowSim RowSim2 RowPar RowTop RowSpec RowCalls.
From Verif Require AoAProofs AoAProofs3 AoAProofs4 AoSProofs SetsProofs SetsProofs2 SortedProofs2 SparsityProofs CRSProofs CRSProofs2 CRSProofs3.
Import ListNotations.
Set Implicit Arguments.

Lemma guard_inv A b (x y : A) : guard b x = Some y -> b = true /\ y = x.
Proof. unfold guard. destruct b; [|discriminate]. intros E. injection E as <-. auto. Qed.
Ltac gd E := apply guard_inv in E; let G := fresh "G" in destruct E as [G E]; injection E as -> ->;
  rewrite ?andb_true_iff, ?Nat.leb_le, ?Nat.ltb_lt in G.

Section Arrays.
Variables V W : Type.
Variable fw : V -> W.
Variable chk tv tw : bool.
Notation idv := (fun v : V => v).
Notation aok := (@AoAProofs.aok V V W idv fw tv tw false).
Notation heap := (heap V W).

Lemma arrays_sim n i0 o no ns nv ne op a i a' r h ix (Q : answer V -> heap -> Prop) : f_vcall chk tv op a i = Ok (a', r) ->
  part n i0 o no ns nv ne a h -> ix = i0 + i -> (forall h', part n i0 o no ns nv ne a' h' -> Q r h') ->
  wp (readable i0 o no ns nv ne) (owned i0 o ns nv ne) (p_vcall W chk tv n op ix) h Q.
Proof.
  intros E H Ei HQ. destruct op; cbn [f_vcall p_vcall] in *; unfold oret, onew, ret, pmap in *; binv E x Ex; injection E as <- <-; apply wp_bind.
  - eapply sim_v_emplaceBack; [exact Ex|exact H|exact Ei|exact HQ].
  - eapply sim_v_appendToArray; [exact Ex|exact H|exact Ei|exact HQ].
  - eapply sim_v_emplace; [exact Ex|exact H|exact Ei|exact HQ].
  - eapply sim_v_insertIntoArray; [exact Ex|exact H|exact Ei|exact HQ].
  - eapply sim_eraseFromArray; [exact Ex|exact H|exact Ei|exact HQ].
  - eapply sim_set; [exact Ex|exact H|exact Ei|exact HQ].
  - eapply sim_at; [exact Ex|exact H|exact Ei|]. apply HQ. exact H.
  - eapply sim_sizeOfArray; [exact Ex|exact H|exact Ei|]. apply HQ. exact H.
Qed.
Lemma arrays_fit c (op : vcall V) l l' r : length l <= c -> v_next c op l = Some (l', r) -> length l' <= c.
Proof.
  intros L E. destruct op; cbn [v_next] in E; try (gd E; rewrite ?app_length; cbn [length]; rewrite ?app_length, ?firstn_length, ?skipn_length; lia).
  - destruct (nth_error l j); [|discriminate]. injection E as <- <-. exact L.
  - injection E as <- <-. exact L.
Qed.
Lemma skip_skip A j m (l : list A) : skipn m (skipn j l) = skipn (j + m) l.
Proof. revert l. induction j as [|j IH]; intros l; cbn; auto. destruct l; auto. rewrite skipn_nil. reflexivity. Qed.
Lemma got A B (x : A) (m : outcome A) (f : A -> outcome B) : m = Ok x -> bind m f = f x.
Proof. intros ->. reflexivity. Qed.
Lemma arrays_ok op a A l k B l' r : aok a (A ++ (l, k) :: B) -> True -> v_next (length l + k) op l = Some (l', r) -> length l' <= length l + k ->
  exists a', f_vcall chk tv op a (length A) = Ok (a', r) /\ aok a' (A ++ (l', length l + k - length l') :: B).
Proof.
  intros H _ E F. assert (Fin : forall m (k' : nat), oks m (fun a' => aok a' (A ++ (l', k') :: B)) -> k' = length l + k - length l' ->
    exists a', oret m (@Done V) = Ok (a', Done) /\ aok a' (A ++ (l', length l + k - length l') :: B)).
  { intros m k' (a' & -> & H') ->. exists a'. auto. }
  destruct op; cbn [v_next f_vcall] in *.
  - gd E. destruct k as [|k]; [lia|]. eapply Fin; [apply AoAProofs3.v_emplaceBack_ok; exact H|]. rewrite app_length. cbn. lia.
  - gd E. eapply Fin; [apply AoAProofs3.v_append_ok; [exact H|lia]|]. rewrite app_length. lia.
  - gd E. destruct G as [Gj Gc]. destruct k as [|k]; [lia|]. rewrite <- (firstn_skipn j l) in H.
    assert (Ej : length (firstn j l) = j) by (rewrite firstn_length; lia).
    eapply Fin; [rewrite <- Ej at 1; apply AoAProofs3.v_emplace_ok; exact H|]. rewrite app_length. cbn. rewrite Ej, skipn_length. lia.
  - gd E. destruct G as [Gj Gc]. rewrite <- (firstn_skipn j l) in H.
    assert (Ej : length (firstn j l) = j) by (rewrite firstn_length; lia).
    eapply Fin; [rewrite <- Ej at 1; apply AoAProofs3.v_insert_ok; [exact H|lia]|]. rewrite !app_length, Ej, skipn_length. lia.
  - gd E. destruct G as [Gj Gc]. rename k0 into m.
    assert (El : l = firstn j l ++ firstn m (skipn j l) ++ skipn (j + m) l).
    { rewrite <- (firstn_skipn j l) at 1. f_equal. rewrite <- (firstn_skipn m (skipn j l)) at 1. f_equal. apply skip_skip. }
    assert (Ej : length (firstn j l) = j) by (rewrite firstn_length; lia).
    assert (Em : m = length (firstn m (skipn j l))) by (rewrite firstn_length, skipn_length; lia).
    rewrite El in H. eapply Fin; [rewrite <- Ej at 1; apply AoAProofs3.eraseFrom_ok with (ds := firstn m (skipn j l)); [exact H|exact Em|]|].
    + rewrite <- Em, skipn_length. lia.
    + rewrite app_length, Ej, skipn_length. lia.
  - gd E. destruct (nth_error l j) as [y|] eqn:Ny; [|apply nth_error_None in Ny; lia].
    destruct (nth_error_split l j Ny) as (xs & ys & -> & <-). rewrite firstn_app, Nat.sub_diag, firstn_all in *. cbn [firstn] in *. rewrite app_nil_r in *.
    assert (Es : skipn (length xs + 1) (xs ++ y :: ys) = ys).
    { rewrite skipn_app, skipn_all2 by lia. replace (length xs + 1 - length xs) with 1 by lia. reflexivity. }
    rewrite Es in *. eapply Fin; [apply AoAProofs3.set_ok with (y := y); exact H|]. rewrite !app_length. cbn. lia.
  - destruct (nth_error l j) as [y|] eqn:Ny; [|discriminate]. injection E as <- <-. exists a. split.
    + unfold onew. rewrite (got _ (@AoAProofs4.rep_at V W chk tv tw fw a (map fst (A ++ (l, k) :: B)) (map (@wid V) (A ++ (l, k) :: B)) (length A) l j y
        ltac:(exists (A ++ (l, k) :: B); auto) ltac:(rewrite map_app, nth_error_app2, map_length, Nat.sub_diag by (rewrite map_length; lia); reflexivity) Ny)). reflexivity.
    + replace (length l + k - length l) with k by lia. exact H.
  - injection E as <- <-. exists a. destruct H as [Ia He]. split.
    + unfold onew. rewrite (got _ (@AoAProofs3.row_size V W chk a A l k B Ia)). reflexivity.
    + replace (length l + k - length l) with k by lia. split; auto.
Qed.
Theorem arrays_top a L ths M' rs : aok a L -> separate ths ->
  calls_run v_next (map (@wid V) L) (concat ths) (map fst L) = Some (M', rs) ->
  exists a' rss L', rs = concat rss /\ f_calls (f_vcall chk tv) (concat ths) a = Ok (a', rs) /\
    aok a' L' /\ map fst L' = M' /\ map (@wid V) L' = map (@wid V) L /\
    exists steps, forall sched, exists h' ths', exec (@access V W (list (answer V))) sched (heap_of a) (map (p_calls (p_vcall W chk tv) (numArrays a)) ths) = Ok (h', ths') /\ no_race ths' /\
      (fair (length ths) steps sched -> done ths') /\
      (done ths' -> ths' = map Ret rss /\ forall b i, h' b i = heap_of a' b i).
Proof.
  intros H S E. destruct (@rows_top V V W idv fw tv tw false (vcall V) (answer V) (p_vcall W chk tv) (f_vcall chk tv) v_next (fun _ => True)
    arrays_sim arrays_ok (fun _ _ _ _ _ _ _ _ => Logic.I) arrays_fit a L ths M' rs H) as (a' & rss & L' & H1 & H2 & H3 & _ & H4 & H5 & H6); auto.
  - apply Forall_forall. auto.
  - exists a', rss, L'. auto 10.
Qed.
End Arrays.
