(** Property C72: pylvarray.Array and the NumPy arrays on its memory. Statements use GridSpec and PyArraySpec besides the modelled
    functions. *)
From Coq Require Import List Arith ZArith Lia Bool.
From Verif Require Import Base BaseProofs BufferManip PyBase PyArraysSpec Indexing IndexingSpec IndexingProofs Array ArraySpec GridSpec GridProofs PyArray PyArraySpec PyArrayProofs.
From Verif Require ArrayProofs2.
Import ListNotations.
Set Implicit Arguments.
Unset Strict Implicit.

Section Statements.
Variable V : Type.
Variable dflt : V.
Variable chk : bool.
Variable perm : list nat.
Hypothesis P : is_permutation perm (length perm).
Hypothesis NZ : 0 < length perm.
Variable safe : nat -> nat -> bool.
Variable conv : nat -> nat -> Z -> Z.
Variable longlong : nat.
Variable imax sz host : Z.
Hypothesis SZ : (0 < sz)%Z.
Notation python := (pa_run chk perm dflt safe conv longlong imax sz host).
Notation step := (pa_step chk perm dflt safe conv longlong imax sz host).
Notation spec := (spec_run perm dflt safe conv longlong imax sz host).
Notation specstep := (spec_step perm dflt safe conv longlong imax sz host).
(** An array as C++ leaves it *)
Notation from_cpp h g a := (Forall (static_ok (length perm)) h /\ grid_run perm dflt h (new_grid V perm) = Some g /\
  run (nstep chk true BMalloc perm dflt) h (new_array V BMalloc perm) = Ok a).

Lemma start_rel h g a level : from_cpp h g a -> prel perm sz (mkPR (Some a) level 0 []) (mkS g (capacity a) level 0 []).
Proof.
  intros (F & X & E). destruct (run_gok chk P NZ (new_gok V true P NZ) F X) as (a' & E' & G). rewrite E in E'. injection E' as <-.
  exists a. cbn. repeat (split; [solve [auto]|]). constructor.
Qed.
(** Every program returns and raises what the same program over an N-dimensional array of values does, and leaves the array with
    these values. *)
Theorem C72_array h g a level prog t' rs : from_cpp h g a -> Forall (proper perm) prog -> spec prog (mkS g (capacity a) level 0 []) = Some (t', rs) ->
  exists s' a', python prog (mkPR (Some a) level 0 []) = Ok (s', rs) /\ r_array s' = Some a' /\ r_level s' = s_level t' /\
    gshows perm chk a' (s_grid t') /\ storage true a' (g_vals (s_grid t')) /\ dtor chk true BMalloc a' = Ok tt.
Proof.
  intros C F H. destruct (run_rel chk P NZ SZ (start_rel level C) F H) as (s' & E & a' & Ea & G & _ & Le & _). exists s', a'. repeat (split; [assumption|]).
  split; [apply (gok_shows chk P NZ G)|]. destruct G as (A & _). split; [apply (ArrayProofs2.arr_storage A)|apply (ArrayProofs2.dtor_ok chk BMalloc A)].
Qed.
(** What happens otherwise, after any program: extents that are not in the range of the index type end the process, elements of a
    NumPy array made before the memory was moved are in freed memory. *)
Theorem C72_otherwise h g a level prog t' rs s' c : from_cpp h g a -> Forall (proper perm) (prog ++ [c]) ->
  spec prog (mkS g (capacity a) level 0 []) = Some (t', rs) -> python prog (mkPR (Some a) level 0 []) = Ok (s', rs) ->
  (specstep c t' = Ends -> step c s' = Abort) /\ (specstep c t' = Freed -> step c s' = Fault FDangling).
Proof.
  intros C F H E. apply Forall_app in F. destruct F as [F Fc]. inversion Fc; subst.
  destruct (run_rel chk P NZ SZ (start_rel level C) F H) as (s2 & E2 & R). rewrite E in E2. injection E2 as <-.
  pose proof (step_rel chk dflt P NZ safe conv longlong imax host SZ R H2) as S. split; intros Q; rewrite Q in S; exact S.
Qed.
(** A NumPy array on the present memory with the present extents shows the value of each index, and writing through it is writing
    to the array. *)
Theorem C72_views t k w u idx : Forall2 lt u (g_dims (s_grid t)) -> norms (g_dims (s_grid t)) idx = Some u ->
  length (g_dims (s_grid t)) = length perm -> length (g_vals (s_grid t)) = extent_product (g_dims (s_grid t)) ->
  nth_error (s_views t) k = Some w -> v_dims w = g_dims (s_grid t) -> v_fixed w = [] -> v_block w = s_block t ->
  (exists x, specstep (WGet k idx) t = Good t (RElem x) /\ value perm (s_grid t) u = Some x) /\
  forall v, v_write w = true -> specstep (WSet k idx v) t = Good (mkS (written perm (s_grid t) u v) (s_room t) (s_level t) (s_block t) (s_views t)) RNone.
Proof.
  intros Fu No L Lv Nk Dw Fw Bw. pose proof (Forall2_len Fu) as Lu. assert (Lp : length u = length perm) by lia.
  assert (Sl := slot_bound P L Fu). set (p := lin (gather perm (g_dims (s_grid t))) (gather perm u)) in *.
  cbn [spec_step]. rewrite Nk. unfold v_shape. rewrite Fw. cbn [length skipn app]. rewrite Dw, No, Lp, Nat.ltb_irrefl, Bw, Nat.eqb_refl. cbn [negb].
  rewrite (rank_slot P L Fu). fold p. split.
  - destruct (nth_error (g_vals (s_grid t)) p) as [x|] eqn:N; [|apply nth_error_None in N; lia]. exists x. split; [reflexivity|]. unfold value. rewrite (seen_slot P) by auto. exact N.
  - intros v Hw. rewrite Hw. cbn [negb]. f_equal. f_equal.
    assert (Wv := written_vals P v L Fu Lv). fold p in Wv. destruct (written perm (s_grid t) u v) as [gd gr gv] eqn:Ew. cbn [g_vals] in Wv. unfold written in Ew. injection Ew as <- <- _. subst gv.
    f_equal. unfold store_at. destruct (Nat.ltb_spec p (length (g_vals (s_grid t)))); [|lia]. symmetry. apply ArrayProofs2.upd_firstn. lia.
Qed.
(** Below MODIFIABLE and without NumPy arrays that can be written, no program changes the array. *)
Definition sets_level (c : acall V) : bool := match c with ASetLevel _ _ => true | _ => false end.
Definition from_outside (c : acall V) : bool := match c with ACpp _ => true | _ => false end.
Theorem C72_read_only prog : forall t t' rs, spec prog t = Some (t', rs) ->
  existsb sets_level prog = false -> existsb from_outside prog = false -> (s_level t < MODIFIABLE)%Z -> Forall (fun w => v_write w = false) (s_views t) ->
  s_grid t' = s_grid t.
Proof.
  induction prog as [|c prog IH]; intros t t' rs H Ns No Lv Vw; [injection H as <- _; reflexivity|].
  cbn [spec_run existsb] in *. apply orb_false_iff in Ns, No. destruct Ns as [Ns Ns'], No as [No No'].
  assert (Q : forall t1 r, specstep c t = Good t1 r -> s_grid t1 = s_grid t /\ s_level t1 = s_level t /\ Forall (fun w => v_write w = false) (s_views t1)).
  { clear H. intros t1 r H. assert (Lr : (s_level t <? RESIZEABLE)%Z = true) by (apply Z.ltb_lt; unfold MODIFIABLE, RESIZEABLE in *; lia).
    destruct c as [|d|n|obj| | |level space|k idx|k idx v|c]; cbn [spec_step] in H; rewrite ?Lr in H; try discriminate;
    try (injection H as <- _; cbn; auto; fail).
    - destruct (representable perm sz (g_dims (s_grid t))); [|discriminate]. injection H as <- _. cbn. repeat split; auto. apply Forall_app. split; [exact Vw|].
      constructor; [|constructor]. cbn. apply Z.leb_gt. exact Lv.
    - destruct (nth_error (s_views t) k) as [w|] eqn:Nk; [|injection H as <- _; auto]. destruct (norms (v_shape w) idx) as [js|]; [|injection H as <- _; auto].
      destruct (length (v_fixed w ++ js) <? length perm).
      + injection H as <- _. cbn. repeat split; auto. apply Forall_app. split; [exact Vw|]. constructor; [|constructor]. cbn. rewrite Forall_forall in Vw. apply Vw. eapply nth_error_In. exact Nk.
      + destruct (rank _ _); [|discriminate]. destruct (v_block w =? s_block t); cbn [negb] in H; [|discriminate]. destruct (nth_error (g_vals (s_grid t)) n); [|discriminate]. injection H as <- _. auto.
    - destruct (nth_error (s_views t) k) as [w|] eqn:Nk; [|injection H as <- _; auto].
      assert (Hw : v_write w = false) by (rewrite Forall_forall in Vw; apply Vw; eapply nth_error_In; exact Nk). rewrite Hw in H. injection H as <- _. auto. }
  destruct (specstep c t) as [t1 r| | | | |]; try discriminate. destruct (Q _ _ eq_refl) as (Q1 & Q2 & Q3).
  destruct (spec prog t1) as [[t2 rs2]|] eqn:E2; [|discriminate]. injection H as <- _. rewrite <- Q1. eapply IH; eauto. rewrite Q2. exact Lv.
Qed.
(** Below RESIZEABLE no program changes the extents or moves the memory: no NumPy array gets into freed memory, and none into memory
    that the array does not use. *)
Theorem C72_not_resizeable prog : forall t t' rs, spec prog t = Some (t', rs) ->
  existsb sets_level prog = false -> existsb from_outside prog = false -> (s_level t < RESIZEABLE)%Z ->
  g_dims (s_grid t') = g_dims (s_grid t) /\ g_rix (s_grid t') = g_rix (s_grid t) /\ s_block t' = s_block t /\ length (g_vals (s_grid t')) = length (g_vals (s_grid t)).
Proof.
  induction prog as [|c prog IH]; intros t t' rs H Ns No Lv; [injection H as <- _; auto|].
  cbn [spec_run existsb] in *. apply orb_false_iff in Ns, No. destruct Ns as [Ns Ns'], No as [No No'].
  assert (Q : forall t1 r, specstep c t = Good t1 r ->
    g_dims (s_grid t1) = g_dims (s_grid t) /\ g_rix (s_grid t1) = g_rix (s_grid t) /\ s_block t1 = s_block t /\ length (g_vals (s_grid t1)) = length (g_vals (s_grid t)) /\ s_level t1 = s_level t).
  { clear H. intros t1 r H. assert (Lr : (s_level t <? RESIZEABLE)%Z = true) by (apply Z.ltb_lt; exact Lv).
    destruct c as [|d|n|obj| | |level space|k idx|k idx v|c]; cbn [spec_step] in H; rewrite ?Lr in H; try discriminate;
    try (injection H as <- _; cbn; auto 6; fail).
    - destruct (representable perm sz (g_dims (s_grid t))); [|discriminate]. injection H as <- _. cbn. auto 6.
    - destruct (nth_error (s_views t) k) as [w|] eqn:Nk; [|injection H as <- _; auto 6]. destruct (norms (v_shape w) idx) as [js|]; [|injection H as <- _; auto 6].
      destruct (length (v_fixed w ++ js) <? length perm).
      + injection H as <- _. cbn. auto 6.
      + destruct (rank _ _); [|discriminate]. destruct (v_block w =? s_block t); cbn [negb] in H; [|discriminate]. destruct (nth_error (g_vals (s_grid t)) n); [|discriminate]. injection H as <- _. auto 6.
    - destruct (nth_error (s_views t) k) as [w|] eqn:Nk; [|injection H as <- _; auto 6]. destruct (v_write w); cbn [negb] in H; [|injection H as <- _; auto 6].
      destruct (norms (v_shape w) idx) as [js|]; [|injection H as <- _; auto 6]. destruct (rank _ _) as [p|]; [|discriminate].
      destruct (v_block w =? s_block t); cbn [negb] in H; [|discriminate]. injection H as <- _. cbn. repeat split. unfold store_at.
      destruct (Nat.ltb_spec p (length (g_vals (s_grid t)))); [|reflexivity]. rewrite !app_length, firstn_length, skipn_length. cbn [length]. lia. }
  destruct (specstep c t) as [t1 r| | | | |]; try discriminate. destruct (Q _ _ eq_refl) as (Q1 & Q2 & Q3 & Q4 & Q5).
  destruct (spec prog t1) as [[t2 rs2]|] eqn:E2; [|discriminate]. injection H as <- _. rewrite <- Q1, <- Q2, <- Q3, <- Q4. eapply IH; eauto. rewrite Q5. exact Lv.
Qed.
(** The strides of an array with elements can be represented if its bytes can be counted. *)
Theorem C72_representable dims : length dims = length perm -> Forall (lt 0) dims -> (Z.of_nat (extent_product dims) * sz < 2 ^ 63)%Z -> representable perm sz dims = true.
Proof.
  intros L F B. unfold representable. apply forallb_forall. intros k Hk. apply Z.ltb_lt. eapply Z.le_lt_trans; [|exact B]. apply Z.mul_le_mono_nonneg_r; [lia|]. apply Nat2Z.inj_le.
  unfold faster_product. assert (Pd : is_permutation perm (length dims)) by (rewrite L; exact P). rewrite <- (gather_prod Pd). unfold gather.
  rewrite <- (firstn_skipn (S k) (map (fun p => nth p dims 0) perm)), skipn_map. generalize (map (fun p => nth p dims 0) (skipn (S k) perm)) as l2. intros l2.
  assert (F1 : Forall (lt 0) (firstn (S k) (map (fun p => nth p dims 0) perm))).
  { apply Forall_forall. intros x Hx. assert (Hx' : In x (map (fun p => nth p dims 0) perm)) by (rewrite <- (firstn_skipn (S k)); apply in_or_app; auto).
    apply in_map_iff in Hx'. destruct Hx' as (q & <- & Hq). rewrite Forall_forall in F. apply F. apply nth_In. apply (perm_facts Pd). exact Hq. }
  revert F1. generalize (firstn (S k) (map (fun p => nth p dims 0) perm)) as l1. induction 1 as [|x l Hx F1 IH]; [reflexivity|]. cbn [app extent_product fold_right] in *. unfold extent_product in *. nia.
Qed.
(** Methods of an object without an array raise. *)
Theorem C72_uninitialised level block views (c : acall V) :
  match c with WGet _ _ | WSet _ _ _ => False | _ => True end -> step c (mkPR None level block views) = Ok (mkPR None level block views, RRaise ERuntime).
Proof. destruct c; intros H; try contradiction; reflexivity. Qed.
End Statements.
Print Assumptions C72_array.
Print Assumptions C72_otherwise.
Print Assumptions C72_views.
Print Assumptions C72_read_only.
Print Assumptions C72_not_resizeable.
Print Assumptions C72_representable.
Print Assumptions C72_uninitialised.

(** An empty array with a large extent: to_numpy ends the process. *)
Theorem C72_huge_refuted : exists a : array nat,
  nstep true true BMalloc [0; 1] 0 (NResize [0; 2 ^ 60]%Z) (new_array nat BMalloc [0; 1]) = Ok a /\ size a = 0 /\
  pa_step true [0; 1] 0 (fun _ _ => true) (fun _ _ z => z) 9 (2 ^ 63 - 1) 8 1 AToNumPy (mkPR (Some a) READ_ONLY 0 []) = Abort.
Proof.
  assert (P : is_permutation [0; 1] (length [0; 1])) by apply Permutation.Permutation_refl.
  destruct (@step_gok nat true true [0; 1] 0 P ltac:(cbn; lia) (NResize [0; 2 ^ 60]%Z) _ _ (mkG [0; Z.to_nat (2 ^ 60)] 0 []) (new_gok nat true P ltac:(cbn; lia)) I eq_refl)
    as (a & E & ((_ & Sa & _) & Da & _) & _).
  exists a. split; [exact E|]. cbn [g_dims] in Da. split; [unfold size; rewrite multiplyAll_prod, Da; reflexivity|].
  cbn [pa_step r_array]. unfold toNumPy. rewrite Sa, Da. clear. 
  assert (Q : forall n, calculateStrides [0; 1] [0; n] = [n; 1]).
  { intros n. assert (Pd : is_permutation [0; 1] (length [0; n])) by apply Permutation.Permutation_refl.
    pose proof (strides_length Pd) as L. pose proof (@strides_spec _ _ 0 Pd ltac:(cbn; lia)) as S0. pose proof (@strides_spec _ _ 1 Pd ltac:(cbn; lia)) as S1.
    destruct (calculateStrides [0; 1] [0; n]) as [|x [|y [|z l]]]; try discriminate. cbn [nth] in S0, S1. subst x y.
    unfold faster_product, extent_product. cbn [skipn map nth fold_right]. rewrite Nat.mul_1_r. reflexivity. }
  rewrite Q. cbn [byteStrides]. rewrite Z2Nat.id by lia. reflexivity.
Qed.
Print Assumptions C72_huge_refuted.

Definition on_array (prog : list (acall nat)) :=
  a <- run (nstep true true BMalloc [1; 0] 0) [NResize [2; 3]%Z; NSet [1; 2]%Z 5] (new_array nat BMalloc [1; 0]) ;;
  '(s, rs) <- pa_run true [1; 0] 0 (fun a b => a =? b) (fun _ _ z => z) 9 (2 ^ 63 - 1) 8 1 prog (mkPR (Some a) READ_ONLY 0 []) ;;
  Ok (match r_array s with Some a => a_dims a | None => [] end, rs).
Definition dims_arg (l : list Z) : option (npy Z) := Some (mkN 1 true 9 l).
Example C72_case :
  on_array [AGetLevel; AToNumPy; WGet 0 [-1; 2]%Z; WSet 0 [0; 0]%Z 7; AResize 4; ASetLevel RESIZEABLE None; AResize (-1); ASetIndex 2; ASetIndex 1; AResize 1; AResize 3; WGet 0 [1; 2]%Z;
            AToNumPy; WGet 1 [1]%Z; WSet 2 [0]%Z 8; WGet 1 [1; 0]%Z; WGet 0 [1; 0]%Z; WGet 1 [2; 0]%Z; WGet 1 [1; 1; 1]%Z; AResizeAll (dims_arg [3]%Z); AResizeAll (dims_arg [3; 1]%Z); AGetIndex;
            WGet 1 [1; 1]%Z; ASetLevel 0 (Some 7)%Z; ASetLevel 3000000000 None] =
  Ok ([3; 1], [RInt 0; RArray 0 [2; 3] false; RElem 5; RRaise EValue; RRaise ERuntime; RNone; RRaise EValue; RRaise EValue; RNone; RNone; RNone; RElem 0;
     RArray 1 [2; 3] true; RArray 2 [3] true; RNone; RElem 8; RElem 8; RRaise EIndex; RRaise EIndex; RRaise ERuntime; RNone; RInt 1; RElem 0; RRaise EValue; RRaise EOverflow]).
Proof. vm_compute. reflexivity. Qed.
(** NumPy arrays are not told when the memory moves, nor when the access level is lowered; negative extents end the process. *)
Theorem C72_moved_refuted : on_array [AToNumPy; ASetLevel RESIZEABLE None; AResize 4; WGet 0 [0; 0]%Z] = Fault FDangling.
Proof. vm_compute. reflexivity. Qed.
Print Assumptions C72_moved_refuted.
Theorem C72_revoked_refuted : on_array [ASetLevel MODIFIABLE None; AToNumPy; ASetLevel READ_ONLY None; WSet 0 [0; 0]%Z 9; AToNumPy; WGet 1 [0; 0]%Z] =
  Ok ([2; 3], [RNone; RArray 0 [2; 3] true; RNone; RNone; RArray 1 [2; 3] false; RElem 9]).
Proof. vm_compute. reflexivity. Qed.
Print Assumptions C72_revoked_refuted.
Theorem C72_resize_all_refuted : on_array [ASetLevel RESIZEABLE None; AResizeAll (dims_arg [-1; 2]%Z)] = Abort.
Proof. vm_compute. reflexivity. Qed.
Print Assumptions C72_resize_all_refuted.
