(** C40: ChaiBuffer copies never expose stale data. *)
From Coq Require Import List Arith Lia Bool.
From Verif Require ChaiNull.
From Verif Require Import Base BaseProofs Chai ChaiSpec ChaiProofs ChaiFlat.
Import ListNotations.

(** Every program that follows the protocol of [spec_run] - with any number of spaces - runs without an
    error on pointers, blocks and records, and reads what it would read without any spaces. *)
Theorem C40_values V n (prog : list (cop V)) st ys :
  spec_run n prog (spec_empty V) = Some (st, ys) ->
  exists w, chai_run n prog (empty_world V) = Ok (w, ys) /\ flat_run prog ([], []) = Some ys.
Proof.
  intros E. destruct (run_refines (R_empty V n) E) as (w & Ew & _). exists w. split; [exact Ew|].
  eapply run_flat; [|exact E]. split; [reflexivity|]. split; [reflexivity|]. intros [|i] a H; discriminate.
Qed.
Print Assumptions C40_values.

(** Memory: every live block belongs to exactly one array that has not been freed, in one space; after
    all arrays are freed nothing is left. *)
Theorem C40_memory V n (prog : list (cop V)) st ys :
  spec_run n prog (spec_empty V) = Some (st, ys) ->
  exists w, chai_run n prog (empty_world V) = Ok (w, ys) /\
  (forall b k, nth_error (w_blocks w) b = Some (Some k) ->
     exists i r a, nth_error (s_arrs st) i = Some (Some a) /\ nth_error (w_recs w) i = Some (Some r) /\
       nth_error (r_ptrs r) (k_space k) = Some (Some b) /\ length (k_data k) = length (l_vals a) /\
       forall i' r' t, nth_error (w_recs w) i' = Some (Some r') -> nth_error (r_ptrs r') t = Some (Some b) -> i' = i /\ t = k_space k) /\
  ((forall i, nth_error (s_arrs st) i = Some None \/ length (s_arrs st) <= i) ->
     forall b, nth_error (w_blocks w) b = Some None \/ length (w_blocks w) <= b).
Proof.
  intros E. destruct (run_refines (R_empty V n) E) as (w & Ew & HR). exists w. split; [exact Ew|].
  destruct HR as [(L & A1 & A2 & A3 & A4) _].
  assert (P : forall b k, nth_error (w_blocks w) b = Some (Some k) ->
     exists i r a, nth_error (s_arrs st) i = Some (Some a) /\ nth_error (w_recs w) i = Some (Some r) /\
       nth_error (r_ptrs r) (k_space k) = Some (Some b) /\ length (k_data k) = length (l_vals a) /\
       forall i' r' t, nth_error (w_recs w) i' = Some (Some r') -> nth_error (r_ptrs r') t = Some (Some b) -> i' = i /\ t = k_space k).
  { intros b k Hb. destruct (A4 b k Hb) as (i & r & t & Hr & Hp). exists i, r.
    destruct (nth_error (s_arrs st) i) as [[a|]|] eqn:Ha; [|apply A2 in Ha; unfold rec_at in Hr; congruence|apply nth_error_None in Ha; apply nth_lt in Hr; lia].
    destruct (A1 i a Ha) as (r0 & Hr0 & (_ & _ & _ & _ & C5 & _)). assert (r0 = r) by (unfold rec_at in *; congruence). subst r0.
    destruct (C5 t b Hp) as (d & Hd & Ld). unfold blk in Hd. rewrite Hb in Hd. injection Hd as ->. cbn [k_space k_data].
    exists a. split; [reflexivity|]. split; [exact Hr|]. split; [exact Hp|]. split; [exact Ld|]. intros i' r' t' H H'.
    exact (A3 i' r' t' i r t b H H' Hr Hp). }
  split; [exact P|]. intros G b. destruct (nth_error (w_blocks w) b) as [[k|]|] eqn:Hb; [|left; reflexivity|right; apply nth_error_None; exact Hb].
  destruct (P b k Hb) as (i & r & a & Ha & _). destruct (G i) as [X|X]; [congruence|]. apply nth_lt in Ha. lia.
Qed.
Print Assumptions C40_memory.

(** With two spaces every move of a buffer whose array is allocated is allowed, touching or not, whether
    the array was touched where it is or not. *)
Theorem C40_two_spaces V (st : sstate V) m h i a s touch :
  nth_error (s_hs st) m = Some h -> h_arr h = Some i -> nth_error (s_arrs st) i = Some (Some a) ->
  l_cur a <> None -> s < 2 -> spec_move 2 st m (Some s) touch <> None.
Proof.
  intros Hh Hi Ha Hc Ls. unfold spec_move, arr_of. rewrite Hh, Hi, Ha. destruct (l_vals a); [discriminate|]. destruct (l_cur a) as [c|]; [|congruence].
  destruct (c =? s); [discriminate|]. apply Nat.ltb_lt in Ls. rewrite Ls. discriminate.
Qed.
Print Assumptions C40_two_spaces.

(** Handles: a buffer whose array is alive has the capacity of that array; a buffer without an array (freed or moved from) is
    null with capacity 0. *)
Theorem C40_handles V n (prog : list (cop V)) st ys :
  spec_run n prog (spec_empty V) = Some (st, ys) ->
  exists w, chai_run n prog (empty_world V) = Ok (w, ys) /\ length (w_bufs w) = length (s_hs st) /\
  forall m h c, nth_error (s_hs st) m = Some h -> nth_error (w_bufs w) m = Some c ->
    c_const c = h_const h /\
    (h_arr h = None -> c_ptr c = None /\ c_cap c = 0 /\ c_rec c = None) /\
    (forall i a, h_arr h = Some i -> nth_error (s_arrs st) i = Some (Some a) -> c_cap c = length (l_vals a)).
Proof.
  intros E. destruct (run_refines (R_empty V n) E) as (w & Ew & HR). exists w. split; [exact Ew|].
  split; [pose proof (proj2 HR) as F2; clear -F2; induction F2; cbn; congruence|]. intros m h c Hh Hc.
  destruct (R_buf HR Hh) as (c' & Hc' & (A & B & D)). rewrite Hc in Hc'. injection Hc' as <-. split; [exact B|]. split.
  - intros N. rewrite N in A. pose proof (@ChaiNull.run_nulls V n prog (empty_world V) w ys (Forall_nil _) Ew) as F. unfold ChaiNull.Nulls in F.
    rewrite Forall_forall in F. specialize (F c (nth_error_In _ _ Hc) A). tauto.
  - intros i a Hi Ha. destruct (D i Hi) as (_ & D'). destruct HR as [(_ & A1 & _) _]. destruct (A1 i a Ha) as (r & Hr & _). exact (proj1 (D' a r Ha Hr)).
Qed.
Print Assumptions C40_handles.
Example C40_handles_case :
  match chai_run 2 [CNew; CRealloc 0 0 0 2; CSteal 0; CNew; CMoveAssign 2 1; CFree 2] (empty_world nat) with
  | Ok (w, _) => w_bufs w = [mkBuf None 0 None false; mkBuf None 0 None false; mkBuf None 0 None false]
  | _ => False end.
Proof. vm_compute. reflexivity. Qed.

(** Copies made for another space, a const copy, a write on the device, reallocation and reading back
    on the host. *)
Definition session : list (cop nat) :=
  [ CNew; CRealloc 0 0 0 2; CWrite 0 0 0 7; CWrite 0 1 0 8;
    CCopy 0 (Some 1); CRead 1 0 1; CWrite 1 1 1 9;
    CConst 1; CMove 2 (Some 0) true; CRead 2 1 0;
    CMove 0 (Some 0) true; CRealloc 0 2 0 3; CWrite 0 2 0 10;
    CMove 0 (Some 1) false; CRead 0 2 1; CRead 0 1 1;
    CMove 0 (Some 0) true; CRead 0 0 0; CFree 0 ].
Example C40_case :
  option_map snd (spec_run 2 session (spec_empty nat)) = Some [7; 9; 10; 9; 7] /\
  flat_run session ([], []) = Some [7; 9; 10; 9; 7] /\
  match chai_run 2 session (empty_world nat) with Ok (w, ys) => ys = [7; 9; 10; 9; 7] /\ forallb (fun b => match b with None => true | _ => false end) (w_blocks w) = true | _ => False end.
Proof. vm_compute. auto. Qed.

(** With three spaces (chai has also UM and PINNED) a move that does not touch, followed by a move to
    the third space, shows memory that was never written: only the last space's touch is looked at. *)
Definition three : list (cop nat) :=
  [ CNew; CRealloc 0 0 0 1; CWrite 0 0 0 7; CMove 0 (Some 1) false; CRead 0 0 1; CMove 0 (Some 2) false; CRead 0 0 2 ].
Example C40_three_spaces_refuted :
  flat_run three ([], []) = Some [7; 7] /\ chai_run 3 three (empty_world nat) = Fault FRead /\ spec_run 3 three (spec_empty nat) = None.
Proof. vm_compute. auto. Qed.
(** The third space can also hold an old value. *)
Definition stale : list (cop nat) :=
  [ CNew; CRealloc 0 0 0 1; CWrite 0 0 0 7; CMove 0 (Some 2) false; CMove 0 (Some 0) true; CWrite 0 0 0 8;
    CMove 0 (Some 1) false; CRead 0 0 1; CMove 0 (Some 2) false; CRead 0 0 2 ].
Example C40_stale_refuted :
  flat_run stale ([], []) = Some [8; 8] /\ option_map snd (match chai_run 3 stale (empty_world nat) with Ok x => Some x | _ => None end) = Some [8; 7].
Proof. vm_compute. auto. Qed.

(** registerTouch without a move: marking the host while the newest values are on the device loses them.
    The protocol asks that an array is touched only where it is. *)
Definition lost : list (cop nat) :=
  [ CNew; CRealloc 0 0 0 1; CWrite 0 0 0 7; CMove 0 (Some 1) true; CWrite 0 0 1 8; CTouch 0 0; CMove 0 (Some 0) true; CRead 0 0 0 ].
Example C40_touch_refuted :
  flat_run lost ([], []) = Some [8] /\ option_map snd (match chai_run 2 lost (empty_world nat) with Ok x => Some x | _ => None end) = Some [7] /\
  spec_run 2 lost (spec_empty nat) = None.
Proof. vm_compute. auto. Qed.
