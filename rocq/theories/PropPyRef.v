(** C66: the reference counts of Python objects handled by src/python. *)
From Coq Require Import List Arith Lia Bool.
From Verif Require Import Base BaseProofs PyRef PyRefSpec PyRefProofs.
Import ListNotations.
Set Implicit Arguments.
Unset Strict Implicit.

(** Every program made of PyObjectRefs which only gives away references it owns runs without touching a
    deallocated object, and the count of every object is the number of PyObjectRefs, plain pointers, lost
    references and containers which refer to it. *)
Theorem C66_counts prog w : wrun prog nobody = Some w ->
  exists s, rrun prog start = Ok s /\ p_vars s = w_vars w /\
    forall o, count (p_heap s) o = occ (all_owners w) o + occ (inner (p_heap s)) o.
Proof.
  intros H. destruct (rrun_ok start_ok H) as (s & R & M1 & M2 & M3). exists s. auto.
Qed.
(** The object of every PyObjectRef is alive. *)
Theorem C66_alive prog w v o : wrun prog nobody = Some w -> nth_error (w_vars w) v = Some (Some (Some o)) ->
  exists s, rrun prog start = Ok s /\ 0 < count (p_heap s) o.
Proof.
  intros H V. destruct (C66_counts H) as (s & R & _ & B). exists s. split; [exact R|]. rewrite B.
  assert (I : In o (all_owners w)).
  { unfold all_owners. apply in_or_app. left. unfold held. apply in_flat_map. exists (Some (Some o)). split; [exact (nth_error_In _ _ V)|left; reflexivity]. }
  apply occ_in in I. lia.
Qed.
(** When all PyObjectRefs are destroyed, no plain pointer owns a reference and none was lost, every object has
    been deallocated. *)
Theorem C66_released prog w : wrun prog nobody = Some w -> all_owners w = [] ->
  exists s, rrun prog start = Ok s /\ forall o, count (p_heap s) o = 0.
Proof.
  intros H E. destruct (rrun_ok start_ok H) as (s & R & M1 & M2 & M3). exists s. split; [exact R|]. rewrite E in M3. apply nobody_owns; [|exact M3].
  refine (rrun_tree start_ok H _ R). intros [|o] x N; discriminate N.
Qed.
(** References are lost only by assignments of a PyObjectRef to a PyObjectRef. *)
Definition assigns (c : rcmd) : bool := match c with RCopyAssign _ _ | RMoveAssign _ _ => true | _ => false end.
Theorem C66_only_assignments_lose prog w : wrun prog nobody = Some w -> forallb (fun c => negb (assigns c)) prog = true -> w_lost w = [].
Proof.
  change (w_lost w = []) with (w_lost w = w_lost nobody). generalize nobody as w0. induction prog as [|c prog IH]; simpl; intros w0 H N; [injection H as <-; reflexivity|].
  apply andb_prop in N. destruct N as [Nc Np]. destruct (wstep c w0) as [w1|] eqn:E; [|discriminate]. rewrite (IH _ H Np). clear IH H Np.
  assert (G : forall p w2, give w0 p = Some w2 -> w_lost w2 = w_lost w0) by (intros p w2 Q; apply (give_occ Q)).
  destruct c; simpl in *; try discriminate Nc;
    repeat match type of E with
    | match ?x with _ => _ end = _ => let F := fresh "F" in destruct x eqn:F; try discriminate E
    end; try (injection E as <-); cbn; eauto.
Qed.
(** A lost reference keeps its object alive forever. *)
Theorem C66_lost_forever prog w o more w' : wrun prog nobody = Some w -> In o (w_lost w) -> wrun more w = Some w' ->
  exists s, rrun (prog ++ more) start = Ok s /\ 0 < count (p_heap s) o.
Proof.
  intros H I M. assert (A : wrun (prog ++ more) nobody = Some w') by (rewrite wrun_app, H; exact M).
  destruct (C66_counts A) as (s & R & _ & B). exists s. split; [exact R|]. rewrite B.
  pose proof (wrun_lost M o) as L. apply occ_in in I. unfold all_owners. rewrite !occ_app. lia.
Qed.
(** The assignments do lose references: [a = PyObjectRef( obj0 ); b = PyObjectRef( obj1 ); a = b;] and the same
    with [a = std::move( b )]; afterwards no PyObjectRef is left. Self-move assignment loses the object, too. *)
Theorem C66_assignment_refuted :
  forall prog, In prog
    [ [RCreate []; RFrom (Some 0); RCreate []; RFrom (Some 1); RCopyAssign 0 1; RDestroy 1; RDestroy 0];
      [RCreate []; RFrom (Some 0); RCreate []; RFrom (Some 1); RMoveAssign 0 1; RDestroy 1; RDestroy 0];
      [RCreate []; RFrom (Some 0); RMoveAssign 0 0; RDestroy 0] ] ->
  exists w s, wrun prog nobody = Some w /\ held (w_vars w) = [] /\ w_raw w = [] /\ rrun prog start = Ok s /\ count (p_heap s) 0 = 1.
Proof.
  intros prog [<-|[<-|[<-|[]]]]; eexists; eexists; repeat split; vm_compute; reflexivity.
Qed.

(** Calling a Python function, whatever fails, leaves the owners as they were: every argument it made is given
    up exactly once. *)
Theorem C66_callPyFunc h args l tupleOk callOk : books h (args ++ l) ->
  exists h' rest, callPyFunc h args tupleOk callOk = Ok (h', rest) /\ books h' (flat_map of_ptr rest ++ l) /\
    rest = if tupleOk then repeat None (length args) else map Some args.
Proof.
  intros B. destruct (@callPyFunc_ok h args l tupleOk callOk B) as ([h' rest] & E & B'). exists h', rest. split; [exact E|]. split; [exact B'|].
  unfold callPyFunc in E. destruct tupleOk; [|injection E as _ <-; reflexivity].
  destruct (fresh h []) as [h1 t]. destruct (set_items h1 t args) as [h2| |]; try discriminate E. cbn [bind] in E.
  destruct (if callOk then _ else _) as [h3| |] in E; try discriminate E. cbn [bind] in E.
  destruct (xdecref h3 (Some t)) as [h4| |]; try discriminate E. injection E as _ <-. clear. induction args; simpl; congruence.
Qed.
Theorem C66_call_function h l ok tupleOk callOk : books h l ->
  exists h', call_function h ok tupleOk callOk = Ok (h', forallb (fun b => b) ok) /\ books h' l.
Proof.
  intros B. destruct (@call_function_ok h l ok tupleOk callOk B) as ([h' b] & E & B' & Eb). cbn [fst snd] in *. subst b. eauto.
Qed.
(** Adding a type to a module *)
Theorem C66_addTypeToModule h l module type addOk : books h l -> In module l -> 0 < count h type ->
  exists h', addTypeToModule h module type addOk = Ok h' /\ books h' l.
Proof. intros B I P. exact (@addType_ok h l module type addOk B I P). Qed.

(** Adding the module pylvarray to a module takes one reference too many: afterwards its count is one less than
    the number of references to it. *)
Theorem C66_addPyLvArrayModule_refuted h l module o : books h l -> In module l -> 0 < count h o ->
  exists h', addPyLvArrayModule h module o true = Ok h' /\ count h' o + 1 = occ l o + occ (inner h') o.
Proof.
  intros B I P. destruct (addModule_short B I P) as (h' & E & C). exists h'. split; [exact E|]. specialize (C o).
  destruct (Nat.eq_dec o o); [exact C|congruence].
Qed.
Theorem C66_addPyLvArrayModule_fails h l module o : books h l -> 0 < count h o ->
  exists h', addPyLvArrayModule h module o false = Ok h' /\ books h' l.
Proof. intros B P. exact (@addModule_fails h l module o B P). Qed.
(** With one reference each to the module (0) and to pylvarray (1), giving up both ends in the use of a
    deallocated object. *)
Theorem C66_module_dangles_refuted :
  exists h, books h [0; 1] /\
    (h1 <- addPyLvArrayModule h 0 1 true ;; h2 <- decref h1 1 ;; decref h2 0) = Fault FDangling.
Proof.
  exists [mkO 1 []; mkO 1 []]. split; [|vm_compute; reflexivity]. intros [|[|o]]; try reflexivity. unfold count. simpl. destruct o; reflexivity.
Qed.
(** The loop over the dimensions of createCupyArrayImpl gives every entry away and gives it up again: with one
    dimension or more, destroying the tuples uses deallocated objects. *)
Theorem C66_createCupyArray_refuted h n : createCupyArray h (S n) = Fault FDangling.
Proof. apply cupy_dangles. Qed.
(** to_scipy: the three arrays are owned by the matrix it returns and, besides, by nobody who could ever give
    them up. *)
Theorem C66_toSciPy_leaks h l m c : books h l -> 0 < count h m -> 0 < count h c ->
  exists h' matrix, toSciPy h m c = Ok (h', matrix) /\
    books h' (matrix :: [length h; length h + 1; length h + 2] ++ l).
Proof.
  intros B Pm Pc. destruct (toSciPy_ok B Pm Pc) as ([h' x] & E & B'). cbn [fst snd] in B'. exists h', x. split; [exact E|].
  replace (length h + 1) with (S (length h)) by lia. replace (length h + 2) with (S (S (length h))) by lia. exact B'.
Qed.
(** create: success returns the new object with one owner, the caller; without a NumPy type for the values the
    new object has an owner but nobody gets the pointer. *)
Theorem C66_create h l dtype typeOk : books h l -> 0 < count h dtype ->
  exists h' r, create_wrapper h dtype typeOk = Ok (h', r) /\ books h' (length h :: l) /\
    r = if typeOk then Some (length h) else None.
Proof.
  intros B P. destruct (@create_ok h l dtype typeOk B P) as ([h' r] & E & B' & Er). exists h', r. auto.
Qed.

(** Non-vacuity: a tuple of two objects, one of them still held by a PyObjectRef; copying, moving, releasing. *)
Definition demo : list rcmd :=
  [RCreate []; RFrom (Some 0); RCopy 0; RCreate []; RRelease 1; RCreate [0; 1]; RFrom (Some 2); RMove 2; RDestroy 2; RPtrAssign 3 None].
Example C66_case :
  wrun demo nobody = Some (mkW [Some (Some 0); Some None; None; Some None] [] [] 3) /\
  rrun demo start = Ok (mkP [mkO 1 []; mkO 0 []; mkO 0 []] [Some (Some 0); Some None; None; Some None]) /\
  wrun (demo ++ [RDestroy 0; RDestroy 1; RDestroy 3]) nobody = Some (mkW [None; None; None; None] [] [] 3).
Proof. repeat split; vm_compute; reflexivity. Qed.
Example C66_case_books : books [mkO 2 []; mkO 1 [0]] [0; 1] /\
  addTypeToModule [mkO 2 []; mkO 1 [0]] 1 0 true = Ok [mkO 3 []; mkO 1 [0; 0]] /\
  call_function [mkO 2 []; mkO 1 [0]] [true; true] true true = Ok ([mkO 2 []; mkO 1 [0]; dead; dead; dead; dead], true) /\
  call_function [mkO 2 []; mkO 1 [0]] [true; false] true true = Ok ([mkO 2 []; mkO 1 [0]; dead], false).
Proof. repeat split; try (vm_compute; reflexivity). intros [|[|o]]; try reflexivity. unfold count. simpl. destruct o; reflexivity. Qed.

Print Assumptions C66_counts.
Print Assumptions C66_alive.
Print Assumptions C66_released.
Print Assumptions C66_only_assignments_lose.
Print Assumptions C66_lost_forever.
Print Assumptions C66_assignment_refuted.
Print Assumptions C66_callPyFunc.
Print Assumptions C66_call_function.
Print Assumptions C66_addTypeToModule.
Print Assumptions C66_addPyLvArrayModule_refuted.
Print Assumptions C66_addPyLvArrayModule_fails.
Print Assumptions C66_module_dangles_refuted.
Print Assumptions C66_createCupyArray_refuted.
Print Assumptions C66_toSciPy_leaks.
Print Assumptions C66_create.
