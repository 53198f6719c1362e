(** Properties C37 and C39 for Array and SortedArray: copies are deep, moves transfer the storage. Statements use ValuesSpec and
    ArraySpec only besides the modelled functions. *)
From Coq Require Import List Arith ZArith Lia Bool Permutation.
From Verif Require Import Base Mem BufferManip Indexing IndexingSpec Array ArraySpec SortedSpec SortedArray Values ValuesSpec CopyMove.
From Verif Require BaseProofs MemProofs BufferManipProofs IndexingProofs ArrayProofs ArrayProofs2 ArrayProofs3 SortedProofs SortedArrayProofs
  ValuesProofs ValuesProofs2 CopyMoveProofs.
Import ListNotations.
Set Implicit Arguments.
Unset Strict Implicit.

(** The classes: Array<T, 1>, Array<T, NDIM, perm> and SortedArray<T>, with MallocBuffer. *)
Notation vector_class chk triv dflt := (array_class chk triv [0] dflt (vstep chk triv BMalloc [0] dflt)).
Notation nd_class chk triv perm dflt := (array_class chk triv perm dflt (nstep chk triv BMalloc perm dflt)).
(** What a program means on plain values: one dimension, shapes of N dimensions, sets as increasing lists. *)
Notation vector_program dflt p :=
  (plains (@nil _) (@nil _) (vector dflt) (fun _ w => Some w) (@Some _) (fun _ => []) true void_list p ([], [])).
Notation shape_program ndim p :=
  (plains (repeat 0 ndim, 0) (repeat 0 ndim, 0) (shape_step ndim) (fun _ w => Some w) (@Some _) no_extents true void_shape p ([], [])).
Notation set_program lt eqb p :=
  (plains (@nil _) (@nil _) (set_step lt eqb) (fun _ w => Some w) (@Some _) (fun _ => []) true void_list p ([], [])).
Notation moves i := (match i with Move _ _ => true | _ => false end).
Notation start := (mkState [] []).

(** C37: a program over any number of one dimensional Arrays (construction, copy and move construction, calls, copy
    and move assignment, destruction; an assignment from itself included) leaves each variable with exactly the elements it has when
    every variable is a plain list of its own. Blocks are never shared. *)
Theorem C37_vector_programs : forall V (dflt : V) chk triv p e,
  vector_program dflt p = Some e ->
  exists st, executes (vector_class chk triv dflt) p start = Ok st /\
    (forall x l, value e x = Some l -> exists v, content (vector_class chk triv dflt) st x = Ok v /\
       shows chk [0] (pack v) l /\ storage triv (pack v) l) /\
    (forall x, value e x = None -> var (vars st) x = Fault FDangling) /\
    NoDup (owned st).
Proof.
  intros V dflt chk triv p e H. destruct (CopyMoveProofs.vec_program chk triv H) as (st & E & (A & B & C & _)). exists st. split; [exact E|].
  split; [|auto]. intros x l Hx. destruct (A x l Hx) as (v & Ev & Rv). exists v. split; [exact Ev|]. split.
  - eapply CopyMoveProofs.vec_shows. exact Rv.
  - eapply CopyMoveProofs.vec_storage. exact Rv.
Qed.
Print Assumptions C37_vector_programs.
Definition sample : list (stmt (vcall nat)) :=
  [New; Call 0 (VEmplaceBack 1); Call 0 (VEmplaceBack 2); CopyNew 0; Call 0 (VSet 0%Z 9); Copy 1 1; Call 1 VPopBack; New; Copy 2 0; Destroy 0].
Example C37_case :
  vector_program 0 sample = Some ([None; Some [1]; Some [9;2]], []) /\
  (st <- executes (vector_class true false 0) sample start ;; v <- content (vector_class true false 0) st 2 ;; at_ true [0] (pack v) [0%Z]) = Ok 9 /\
  (* using a destroyed object is noticed *)
  executes (vector_class true false 0) (sample ++ [Copy 1 0]) start = Fault FDangling.
Proof. repeat split; vm_compute; reflexivity. Qed.

(** Without a move assignment, nothing is lost: the blocks not released are those the variables own. *)
Theorem C37_no_leaks : forall V (dflt : V) chk triv p st,
  forallb (fun i => negb (moves i)) p = true ->
  executes (vector_class chk triv dflt) p start = Ok st -> Permutation (live st) (owned st).
Proof.
  intros V dflt chk triv p st H E. eapply ValuesProofs2.no_leak; [| |right; exact H|exact E]; [reflexivity|intros [|c s] X; [reflexivity|discriminate]].
Qed.
Print Assumptions C37_no_leaks.
Example C37_no_leaks_case :
  (st <- executes (vector_class true false 0) sample start ;; Ok (live st, owned st)) = Ok ([1;2], [1;2]).
Proof. vm_compute. reflexivity. Qed.

(** C37 for N dimensions: whatever the two histories, the copy has the extents, the resize dimension and at every index the
    value of the source; the old elements of the target were destroyed (anything else is a Fault, also in the destructor). *)
Theorem C37_copy_assign : forall V (dflt : V) chk triv perm h h' s s',
  is_permutation perm (length perm) -> 0 < length perm ->
  Forall (static_ok (length perm)) h -> Forall (static_ok (length perm)) h' ->
  extents_after h (repeat 0 (length perm), 0) = Some s -> extents_after h' (repeat 0 (length perm), 0) = Some s' ->
  exists a b c, run (nstep chk triv BMalloc perm dflt) h (new_array V BMalloc perm) = Ok a /\
    run (nstep chk triv BMalloc perm dflt) h' (new_array V BMalloc perm) = Ok b /\
    array_assign chk triv perm dflt a b = Ok c /\
    (a_dims c, a_rix c) = s' /\ a_strides c = a_strides b /\
    (forall idx, valid_index (a_dims b) idx -> exists v, at_ chk perm b idx = Ok v /\ at_ chk perm c idx = Ok v) /\
    dtor chk triv BMalloc b = Ok tt /\ dtor chk triv BMalloc c = Ok tt.
Proof.
  intros V dflt chk triv perm h h' [d r] [d' r'] P NZ F F' X X'.
  destruct (@ArrayProofs2.nrun_ok V chk triv BMalloc perm dflt P NZ h _ [] d r eq_refl (ArrayProofs2.new_ok V triv BMalloc P NZ) F) as (a & Ea & (vs & Na) & _); [exact X|].
  destruct (@ArrayProofs2.nrun_ok V chk triv BMalloc perm dflt P NZ h' _ [] d' r' eq_refl (ArrayProofs2.new_ok V triv BMalloc P NZ) F') as (b & Eb & (ws & Nb) & Db & Rb); [exact X'|].
  apply (CopyMoveProofs.nd_arr) in Na. apply CopyMoveProofs.nd_arr in Nb.
  destruct (CopyMoveProofs.nd_assign chk dflt NZ Na Nb) as (c & Ec & Nc & Dc & Sc & Rc). exists a, b, c. repeat split; auto.
  - congruence.
  - intros idx I. destruct (CopyMoveProofs.nd_at chk P NZ Nb Nc (eq_sym Dc) I) as (v & H1 & H2). eauto.
  - eapply CopyMoveProofs.nd_dtor. exact Nb.
  - eapply CopyMoveProofs.nd_dtor. exact Nc.
Qed.
Print Assumptions C37_copy_assign.
Example C37_copy_assign_case :
  let f h := run (nstep true false BMalloc [1;0] 5) h (new_array nat BMalloc [1;0]) in
  (a <- f [NResize [3;1]%Z] ;; b <- f [NResize [2;2]%Z; NSet [1;0]%Z 7] ;; c <- array_assign true false [1;0] 5 a b ;;
   v <- at_ true [1;0] c [1;0]%Z ;; w <- at_ true [1;0] c [0;1]%Z ;; Ok (v, w, a_dims c)) = Ok (7, 5, [2;2]).
Proof. vm_compute. reflexivity. Qed.

(** Programs over N dimensional Arrays: extents of every variable, no shared blocks. *)
Theorem C37_nd_programs : forall V (dflt : V) chk triv perm p e,
  is_permutation perm (length perm) -> 0 < length perm ->
  shape_program (length perm) p = Some e ->
  exists st, executes (nd_class chk triv perm dflt) p start = Ok st /\
    (forall x s, value e x = Some s -> exists v, content (nd_class chk triv perm dflt) st x = Ok v /\
       (a_dims (pack v), a_rix (pack v)) = s /\
       (forall idx, valid_index (fst s) idx -> exists w, at_ chk perm (pack v) idx = Ok w)) /\
    (forall x, value e x = None -> var (vars st) x = Fault FDangling) /\
    NoDup (owned st).
Proof.
  intros V dflt chk triv perm p e P NZ H. destruct (CopyMoveProofs.shape_program chk triv dflt P NZ H) as (st & E & (A & B & C & _)). exists st. split; [exact E|].
  split; [|auto]. intros x s Hx. destruct (A x s Hx) as (v & Ev & ((vs & Nv) & Dv & Rv)). exists v. split; [exact Ev|]. split; [destruct s; cbn in *; congruence|].
  intros idx I. rewrite <- Dv in I. destruct (CopyMoveProofs.nd_at chk P NZ Nv Nv eq_refl I) as (w & Hw & _). eauto.
Qed.
Print Assumptions C37_nd_programs.
Example C37_nd_programs_case :
  let p := [New; Call 0 (NResize [2;3]%Z); CopyNew 0; Call 0 (NSetIndex 1%Z); Call 0 (NResize1 4%Z); MoveNew 0] : list (stmt (ncall nat)) in
  shape_program 2 p = Some ([Some ([0;0], 1); Some ([2;3], 0); Some ([2;4], 1)], []) /\
  (st <- executes (nd_class true true [0;1] 0) p start ;; Ok (owned st)) = Ok [1;0].
Proof. split; vm_compute; reflexivity. Qed.

(** For all programs, calls and classes of arrays: the heap with its pointers does what independent values do, whatever the
    outcome; so no statement about one variable depends on another. *)
Theorem C37_no_sharing : forall V (dflt : V) chk triv perm p,
  match v_executes (nd_class chk triv perm dflt) p ([], []) with
  | Ok vs => exists st, executes (nd_class chk triv perm dflt) p start = Ok st /\
               forall x v, nth_error (fst vs) x = Some (Some v) -> content (nd_class chk triv perm dflt) st x = Ok v
  | Abort => executes (nd_class chk triv perm dflt) p start = Abort
  | Fault f => executes (nd_class chk triv perm dflt) p start = Fault f
  end.
Proof.
  intros V dflt chk triv perm p. set (cl := nd_class chk triv perm dflt).
  assert (N1 : is_null cl (nothing cl) = true) by reflexivity.
  assert (N2 : forall s, is_null cl s = true -> s = nothing cl) by (intros [|c s] X; [reflexivity|discriminate]).
  pose proof (ValuesProofs.executes_agrees N1 N2 p (ValuesProofs.start_rel cl)) as A. unfold ValuesProofs.agrees in A.
  destruct (v_executes cl p ([], [])) as [vs| |f]; auto. destruct A as (st & E & (lp & Fl & _)). exists st. split; [exact E|]. intros x v Hx. unfold content.
  destruct (@ValuesProofs.var_cases _ _ _ cl _ _ _ x Fl) as [(ob & m & s & _ & _ & -> & V' & Ro)|[_ V']].
  - unfold var in V'. rewrite Hx in V'. injection V' as ->. cbn [bind]. rewrite (ValuesProofs.load_ok Ro). cbn [bind]. rewrite (proj1 Ro). reflexivity.
  - unfold var in V'. rewrite Hx in V'. discriminate.
Qed.
Print Assumptions C37_no_sharing.
Example C37_no_sharing_case :
  let p := [New; Call 0 (NResize [2]%Z); CopyNew 0; Call 0 (NSet [1%Z] 8)] : list (stmt (ncall nat)) in
  v_executes (nd_class true false [0] 3) p ([], []) =
    Ok ([Some ([2], [1], 0, [Obj 3; Obj 8]); Some ([2], [1], 0, [Obj 3; Obj 3])], []).
Proof. vm_compute. reflexivity. Qed.

(** C37 for SortedArray *)
Theorem C37_set_programs : forall V (lt eqb : V -> V -> bool) (dflt : V) chk triv p e,
  total_order lt eqb -> set_program lt eqb p = Some e ->
  exists st, executes (sorted_class chk triv dflt lt eqb) p start = Ok st /\
    (forall x l, value e x = Some l -> exists n b, content (sorted_class chk triv dflt lt eqb) st x = Ok (n, b) /\ n = length l /\ increasing lt l /\
       (forall i v, nth_error l i = Some v -> s_at chk (mkS b n) (Z.of_nat i) = Ok v)) /\
    (forall x, value e x = None -> var (vars st) x = Fault FDangling) /\
    NoDup (owned st).
Proof.
  intros V lt eqb dflt chk triv p e T H. destruct (CopyMoveProofs.sorted_program chk triv dflt T H) as (st & E & (A & B & C & _)). exists st. split; [exact E|].
  split; [|auto]. intros x l Hx. destruct (A x l Hx) as ([n b] & Ev & (Hb & Sn & Inc)). cbn in Hb, Sn. exists n, b. split; [exact Ev|]. split; [exact Sn|].
  split; [apply CopyMoveProofs.incr_increasing; exact Inc|]. intros i v Hi. unfold s_at. cbn [s_size s_buf].
  assert (i < length l) by (apply nth_error_Some; congruence).
  assert ((Z.of_nat i <? 0)%Z = false) as E1 by (apply Z.ltb_ge; lia). assert ((Z.of_nat n <=? Z.of_nat i)%Z = false) as E2 by (apply Z.leb_gt; lia).
  rewrite ?E1, ?E2. unfold check_if. cbn [orb]. rewrite ?andb_false_r. cbn [bind]. unfold to_ix. rewrite ?E1. cbn [bind]. rewrite Nat2Z.id.
  eapply (@BufferManipProofs.holds_rd V triv b l i v Hb Hi).
Qed.
Print Assumptions C37_set_programs.
Example C37_set_programs_case :
  let p := [New; Call 0 (SInsertRange [2;5;7]); CopyNew 0; Call 0 (SRemove 5); Call 1 (SInsert 3); MoveNew 0; Call 0 (SInsert 1)] : list (stmt (scall nat)) in
  set_program Nat.ltb Nat.eqb p = Some ([Some [1]; Some [2;3;5;7]; Some [2;7]], []) /\
  (st <- executes (sorted_class true false 0 Nat.ltb Nat.eqb) p start ;; content (sorted_class true false 0 Nat.ltb Nat.eqb) st 2) = Ok (2, [Obj 2; Obj 7; Raw; Raw; Raw; Raw]).
Proof. split; vm_compute; reflexivity. Qed.

(** C39: moves. The contents go over and the source is left empty and usable: this is [vector_program], which
    C37_vector_programs is about, spelled out here for one move of any two variables after any program. *)
Theorem C39_move : forall V (dflt : V) chk triv p e x y l,
  vector_program dflt p = Some e -> value e x <> None -> value e y = Some l -> x <> y ->
  exists st vx vy, executes (vector_class chk triv dflt) (p ++ [Move x y]) start = Ok st /\
    content (vector_class chk triv dflt) st x = Ok vx /\ shows chk [0] (pack vx) l /\ storage triv (pack vx) l /\
    content (vector_class chk triv dflt) st y = Ok vy /\ shows chk [0] (pack vy) [] /\
    (forall c l', vector dflt c [] = Some l' ->
       exists st' v, executes (vector_class chk triv dflt) (p ++ [Move x y; Call y c]) start = Ok st' /\
         content (vector_class chk triv dflt) st' y = Ok v /\ shows chk [0] (pack v) l').
Proof.
  intros V dflt chk triv p e x y l H Hx Hy Ne. destruct (value e x) as [w|] eqn:Ex; [|congruence].
  assert (PA : forall q, vector_program dflt (p ++ q) = plains (@nil V) (@nil V) (vector dflt) (fun _ w => Some w) (@Some _) (fun _ => []) true void_list q e).
  { intros q. revert H. generalize (@nil (option (list V)), @nil (list V)) as e0. induction p as [|i p IH]; intros e0 H0; cbn [plains app] in *; [injection H0 as ->; reflexivity|].
    destruct (plain _ _ _ _ _ _ _ _ i e0); [|discriminate]. apply IH. exact H0. }
  assert (Lx : x < length (fst e)) by (unfold value in Ex; apply nth_error_Some; destruct (nth_error (fst e) x); congruence).
  assert (Ly : y < length (fst e)) by (unfold value in Hy; apply nth_error_Some; destruct (nth_error (fst e) y); congruence).
  set (e1 := (upd (upd (fst e) x (Some l)) y (Some []), (if void_list w then [] else [w]) ++ snd e)).
  assert (P1 : vector_program dflt (p ++ [Move x y]) = Some e1).
  { rewrite PA. cbn [plains plain]. rewrite Ex, Hy. destruct (Nat.eqb_spec x y); [contradiction|]. reflexivity. }
  assert (V1 : value e1 x = Some l) by (unfold value, e1; cbn [fst]; rewrite BaseProofs.nth_error_upd_ne, BaseProofs.nth_error_upd_eq by auto; reflexivity).
  assert (V2 : value e1 y = Some []) by (unfold value, e1; cbn [fst]; rewrite BaseProofs.nth_error_upd_eq by (rewrite BaseProofs.upd_length; auto); reflexivity).
  destruct (C37_vector_programs chk triv P1) as (st & E & A & _). destruct (A x l V1) as (vx & E1 & S1 & T1). destruct (A y [] V2) as (vy & E2 & S2 & _).
  exists st, vx, vy. repeat (split; [assumption|]). intros c l' Hc.
  assert (P2 : vector_program dflt (p ++ [Move x y; Call y c]) = Some (update e1 y (Some l'))).
  { rewrite PA. cbn [plains plain]. rewrite Ex, Hy. destruct (Nat.eqb_spec x y); [contradiction|]. fold e1. rewrite V2, Hc. reflexivity. }
  destruct (C37_vector_programs chk triv P2) as (st' & E' & A' & _). destruct (A' y l') as (v & E3 & S3 & _); [|exists st', v; auto].
  unfold value, update, e1. cbn [fst]. rewrite BaseProofs.nth_error_upd_eq by (rewrite !BaseProofs.upd_length; auto). reflexivity.
Qed.
Print Assumptions C39_move.
Example C39_case :
  let p := [New; Call 0 (VEmplaceBack 1); New; Call 1 (VEmplaceBack 2); Call 1 (VEmplaceBack 3)] in
  (st <- executes (vector_class true false 0) (p ++ [Move 0 1; Call 1 (VEmplaceBack 4)]) start ;;
   vx <- content (vector_class true false 0) st 0 ;; vy <- content (vector_class true false 0) st 1 ;; Ok (a_buf (pack vx), a_buf (pack vy))) =
   Ok ([Obj 2; Obj 3], [Obj 4; Raw]).
Proof. vm_compute. reflexivity. Qed.

(** What a move does to the members, in any number of dimensions and whatever state the program is in: the target gets extents,
    strides, resize index and buffer of the source, whose extents and strides become zero and whose buffer becomes null. *)
Theorem C39_members : forall V (dflt : V) chk triv perm st st' x y d s r k,
  execute (nd_class chk triv perm dflt) (Move x y) st = Ok st' -> x <> y ->
  var (vars st) y = Ok (mkObject (d, s, r) k) ->
  var (vars st') x = Ok (mkObject (d, s, r) k) /\
  var (vars st') y = Ok (mkObject (repeat 0 (length d), repeat 0 (length s), r) None) /\
  heap st' = heap st /\ forall z, z <> x -> z <> y -> var (vars st') z = var (vars st) z.
Proof.
  intros V dflt chk triv perm st st' x y d s r k E Ne Hy. cbn [execute frees array_class] in E.
  destruct (var (vars st) x) as [ox| |] eqn:Ex; cbn [bind] in E; try discriminate.
  unfold move_to in E. rewrite Hy in E. cbn [bind o_members o_handle moved array_class] in E. injection E as <-.
  assert (Lx : x < length (vars st)) by (unfold var in Ex; apply nth_error_Some; destruct (nth_error (vars st) x); congruence).
  assert (Ly : y < length (vars st)) by (unfold var in Hy; apply nth_error_Some; destruct (nth_error (vars st) y); congruence).
  assert (Z : forall l : list nat, map (fun _ => 0) l = repeat 0 (length l)) by (induction l; cbn; congruence).
  unfold put; cbn [vars heap]. unfold var. split; [|split; [|split; [reflexivity|]]].
  - rewrite BaseProofs.nth_error_upd_ne, BaseProofs.nth_error_upd_eq by auto. reflexivity.
  - rewrite BaseProofs.nth_error_upd_eq by (rewrite BaseProofs.upd_length; auto). unfold amoved. rewrite !Z. reflexivity.
  - intros z Zx Zy. rewrite !BaseProofs.nth_error_upd_ne by auto. reflexivity.
Qed.
Print Assumptions C39_members.
Example C39_members_case :
  let p := [New; New; Call 1 (NResize [2;3]%Z)] in
  (st <- executes (nd_class true true [0;1] 7) (p ++ [Move 0 1]) start ;; Ok (vars st)) =
  Ok [Some (mkObject ([2;3], [3;1], 0) (Some 0)); Some (mkObject ([0;0], [0;0], 0) None)].
Proof. vm_compute. reflexivity. Qed.

(** What is lost: the move assignment of Array and SortedArray does not release the storage of its target. After any program the
    blocks not released are those owned by variables and the lost ones, and the lost blocks with elements hold,
    alive, exactly the old values of the move assigned variables. *)
Theorem C39_lost_arrays : forall V (dflt : V) chk triv p e,
  vector_program dflt p = Some e ->
  exists st lost ls, executes (vector_class chk triv dflt) p start = Ok st /\
    Permutation (live st) (owned st ++ lost) /\
    Forall2 (fun k l => exists b, nth_error (heap st) k = Some (Some b) /\ storage triv (mkArray [length l] [1] 0 b) l) lost ls /\
    filter (fun l => negb (void_list l)) ls = snd e.
Proof.
  intros V dflt chk triv p e H. destruct (CopyMoveProofs.vec_program chk triv H) as (st & E & (_ & _ & _ & lost & Pm & ss & ys & F1 & F2 & Ff)).
  exists st, lost, ys. split; [exact E|]. split; [exact Pm|]. split; [|exact Ff]. clear -F1 F2. revert ys F2. induction F1 as [|k s lost ss Hk F1 IH]; intros ys F2; inversion F2; subst; constructor; auto.
  exists s. split; [exact Hk|]. destruct H1 as (m & Hm). apply CopyMoveProofs.vec_storage in Hm. destruct m as [[d t] r]. exact Hm.
Qed.
Print Assumptions C39_lost_arrays.
Theorem C39_lost_sets : forall V (lt eqb : V -> V -> bool) (dflt : V) chk triv p e,
  total_order lt eqb -> set_program lt eqb p = Some e ->
  exists st lost ls, executes (sorted_class chk triv dflt lt eqb) p start = Ok st /\
    Permutation (live st) (owned st ++ lost) /\
    Forall2 (fun k l => exists b, nth_error (heap st) k = Some (Some b) /\ storage triv (mkArray [length l] [1] 0 b) l) lost ls /\
    filter (fun l => negb (void_list l)) ls = snd e.
Proof.
  intros V lt eqb dflt chk triv p e T H. destruct (CopyMoveProofs.sorted_program chk triv dflt T H) as (st & E & (_ & _ & _ & lost & Pm & ss & ys & F1 & F2 & Ff)).
  exists st, lost, ys. split; [exact E|]. split; [exact Pm|]. split; [|exact Ff]. clear -F1 F2. revert ys F2. induction F1 as [|k s lost ss Hk F1 IH]; intros ys F2; inversion F2; subst; constructor; auto.
  exists s. split; [exact Hk|]. destruct H1 as (m & (Hm & _)). apply (@ArrayProofs2.holds_storage V triv). exact Hm.
Qed.
Print Assumptions C39_lost_sets.
Example C39_lost_case :
  let p := [New; Call 0 (VEmplaceBack 1); New; Call 1 (VEmplaceBack 2); Move 0 1; Destroy 0; Destroy 1] in
  vector_program 0 p = Some ([None; None], [[1]]) /\
  (st <- executes (vector_class true false 0) p start ;; Ok (live st, owned st, nth_error (heap st) 0)) = Ok ([0], [], Some (Some [Obj 1; Raw])).
Proof. split; vm_compute; reflexivity. Qed.
(** A move assignment from itself is not covered by the plain meaning: it loses the object's own elements. *)
Example C39_self_move :
  let p := [New; Call 0 (VEmplaceBack 1); Move 0 0] in
  vector_program 0 p = None /\
  (st <- executes (vector_class true false 0) p start ;; v <- content (vector_class true false 0) st 0 ;; Ok (live st, size (pack v))) = Ok ([0], 0).
Proof. split; vm_compute; reflexivity. Qed.
