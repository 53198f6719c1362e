(** C74: containers of several buffers, in particular ArrayOfArrays, in two memory spaces.
    Model: Spaces.v, SpacesAoA.v (with Chai.v and AoA.v); meaning and protocol: SpacesSpec.v, SpacesAoASpec.v. *)
From Coq Require Import List Arith Bool Lia.
From Verif Require Import Base BufferManip AoA AoASpec Spaces SpacesSpec SpacesProofs SpacesAoA SpacesAoASpec SpacesAoAProofs.
From Verif Require AoALayout AoAProofs4.
Import ListNotations.

(** ** Any container *)
(** A program which follows the protocol ends in two spaces as it does in one, with the same reports. *)
Theorem C74_one_space (X N O : Type) (dev : list bool) (n : N) (l : list (sop X N O)) :
  follows dev l (home dev) (n, map (fun _ => []) dev) ->
  match flat_run l (n, map (fun _ => []) dev) with
  | Ok (_, reports) => exists x, space_run dev l (new_obj X dev n) = Ok (x, reports)
  | Abort => space_run dev l (new_obj X dev n) = Abort
  | Fault e => space_run dev l (new_obj X dev n) = Fault e
  end.
Proof.
  intros F. pose proof (run_ok (@new_rel X N dev n) F) as H. destruct (flat_run l _) as [[y r]| |e]; [|exact H|exact H].
  destruct H as (x & p & E & _). exists x. exact E.
Qed.
Print Assumptions C74_one_space.

(** The protocol without bookkeeping: every host method comes at the beginning or after move( host, true ), with only host methods
    in between, and other code that uses the container itself in a space after a move to it; kernels and moves come in any order. *)
Theorem C74_move_home (X N O : Type) (dev : list bool) (n : N) (l : list (sop X N O)) :
  tidy dev (Some 0) l ->
  match flat_run l (n, map (fun _ => []) dev) with
  | Ok (_, reports) => exists x, space_run dev l (new_obj X dev n) = Ok (x, reports)
  | Abort => space_run dev l (new_obj X dev n) = Abort
  | Fault e => space_run dev l (new_obj X dev n) = Fault e
  end.
Proof.
  intros T. apply C74_one_space. apply (tidy_follows T).
  - cbn. repeat split.
    + intros _. rewrite Forall_map. apply Forall_forall. auto.
    + intros i Hi. rewrite nth_error_map, Hi. reflexivity.
  - cbn. apply map_length.
  - cbn. apply map_length.
Qed.
Print Assumptions C74_move_home.

(** ** ArrayOfArrays *)
(** Construction and then any program: methods of the owning class, reads on the host, kernels in either space which change
    and read the rows through captured views, code with views which were not captured, moves. *)
Theorem C74_rows (V : Type) (chk : bool) (dflt : V) n cap us outs :
  obeys dflt us Owned (repeat [] n) (repeat cap n) = true ->
  meaning dflt us (repeat [] n) (repeat cap n) = Some outs ->
  exists x, aoa_program chk dflt n cap us = Ok (x, None :: outs).
Proof. intros B E. exact (aoa_program_ok chk B E). Qed.
Print Assumptions C74_rows.

(** Why methods may be called right after a host kernel which captured toView(), although m_offsets are const there and do not get
    marked: the method marks them, or does not change them, or gives them new memory; unless it is not [careful]. *)
Theorem C74_offsets_marked (V : Type) (chk : bool) (dflt : V) n cap h (c : acall V) (a a' : aoa V unit) M M' :
  (a0 <- new_aoa V unit chk true true false BMalloc n cap ;; arun chk true true false BMalloc dflt h a0) = Ok a ->
  vec_run dflt h (repeat [] n) = Some M -> vec_step dflt c M = Some M' ->
  careful c (cap_run dflt h (repeat [] n) (repeat cap n)) = true ->
  astep chk true true false BMalloc dflt c a = Ok a' ->
  touches_offsets chk c a = true \/ offs a' = offs a \/ length (offs a') <> length (offs a).
Proof.
  intros R E E' C S. destruct (touches_offsets chk c a) eqn:T; [auto|]. right.
  destruct (AoAProofs4.new_ok chk true true (fun _ : V => tt) n cap) as (a0 & E0 & H0). rewrite E0 in R. cbn [bind] in R.
  pose proof (AoAProofs4.run_ok chk dflt h H0) as Q. rewrite E in Q. apply AoALayout.okb_true in Q. destruct Q as (a1 & Ea & Ha). rewrite R in Ea. injection Ea as <-.
  exact (touch_sound Ha E' C S T).
Qed.
Print Assumptions C74_offsets_marked.

Definition reported {A B} (o : outcome (A * B)) : outcome B := match o with Ok (_, r) => Ok r | Abort => Abort | Fault e => Fault e end.

(** Two rows with a value each, two slots wide; both spaces have seen them; the host may write. *)
Definition used : list (uop nat) := [UCall (AEmplaceBack 0 10); UCall (AEmplaceBack 1 20); UKernel 1 ToView []; UKernel 0 ToView []].
Definition goes_wrong (us : list (uop nat)) : Prop :=
  exists outs, meaning 0 us [[]; []] [2; 2] = Some outs /\ reported (aoa_program true 0 2 2 us) <> Ok (None :: outs).

(** Each method that is not careful does go wrong there, also with all checks on. compress: the device reads old places. *)
Theorem C74_compress_refuted : goes_wrong (used ++ [UCall ACompress; UCall (ASet 1 0 99); URead; UKernel 1 ToViewConst []]) /\
  reported (aoa_program true 0 2 2 (used ++ [UCall ACompress; UCall (ASet 1 0 99); URead; UKernel 1 ToViewConst []])) =
    Ok [None; None; None; Some [[10]; [20]]; Some [[10]; [20]]; None; None; Some [[10]; [99]]; Some [[10]; [20]]].
Proof. split; [eexists; split; [reflexivity|]; vm_compute; discriminate|vm_compute; reflexivity]. Qed.
Print Assumptions C74_compress_refuted.
(** resizeFromCapacities, appendArray( 0 ), appendArray and insertArray of no values, eraseArray of an array without capacity *)
Theorem C74_unmarked_refuted :
  goes_wrong (used ++ [UCall (AResizeFromCapacities [1; 3]); UKernel 1 ToView [AEmplaceBack 1 7; AEmplaceBack 1 8; AEmplaceBack 1 9]]) /\
  goes_wrong (UCall (AReserve 5) :: used ++ [UCall (AAppend 0); UKernel 1 ToView [AInsertInto 2 0 []]]) /\
  goes_wrong (UCall (AReserve 5) :: used ++ [UCall (AAppendFrom []); UKernel 1 ToView [AInsertInto 2 0 []]]) /\
  goes_wrong (UCall (AReserve 5) :: used ++ [UCall (AInsertArray 1 []); UKernel 1 ToViewConst []]) /\
  goes_wrong ([UCall (ASetCapacity 0 0); UCall (AEmplaceBack 1 20); UKernel 1 ToView []; UKernel 0 ToView []; UCall (AEraseArray 0); UKernel 1 ToView [AEmplaceBack 0 7]]).
Proof. repeat split; (eexists; split; [reflexivity|]; vm_compute; discriminate). Qed.
Print Assumptions C74_unmarked_refuted.
(** Without coming home: the host reads old values after a device kernel; faults after move( device ), and so does the device
    with a container on the host; changes after move( device, false ) or move( host, false ) never reach the other space. *)
Theorem C74_away_refuted :
  goes_wrong (used ++ [UKernel 1 ToView [ASet 0 0 99]; URead]) /\
  reported (aoa_program true 0 2 2 (used ++ [UMove 1 true; URead])) = Fault FDangling /\
  reported (aoa_program true 0 2 2 (used ++ [UDirect 1 ToViewConst []])) = Fault FDangling /\
  goes_wrong (used ++ [UMove 1 false; UDirect 1 ToView [ASet 0 0 99]; UKernel 0 ToViewConst []]) /\
  goes_wrong (used ++ [UMove 1 true; UMove 0 false; UCall (ASet 0 0 99); UKernel 1 ToViewConst []]).
Proof. split; [eexists; split; [reflexivity|]; vm_compute; discriminate|]. do 2 (split; [vm_compute; reflexivity|]). split; (eexists; split; [reflexivity|]; vm_compute; discriminate). Qed.
Print Assumptions C74_away_refuted.

(** The hypotheses can be met. *)
Example C74_case_marked :
  let h := [AEmplaceBack 0 10; AEmplaceBack 1 20] in
  exists a a', (a0 <- new_aoa nat unit true true true false BMalloc 2 1 ;; arun true true true false BMalloc 0 h a0) = Ok a /\
    vec_run 0 h [[]; []] = Some [[10]; [20]] /\ careful (AEmplaceBack 0 11) (cap_run 0 h [[]; []] [1; 1]) = true /\
    astep true true true false BMalloc 0 (AEmplaceBack 0 11) a = Ok a' /\ touches_offsets true (AEmplaceBack 0 11) a = true.
Proof. eexists _, _. split; [vm_compute; reflexivity|]. split; [reflexivity|]. split; [reflexivity|]. split; vm_compute; reflexivity. Qed.
Example C74_case :
  let us := used ++ [UCall (AAppendFrom [5; 6]); UKernel 1 ToView [AEmplaceBack 2 7; AEraseFrom 0 0 1; ASet 1 0 21]; UMove 0 true;
                     UCall ACompress; UCall (AEraseArray 0); UKernel 1 ToViewConstSizes [ASet 1 2 8]; UMove 0 false; URead;
                     UMove 1 true; UDirect 1 ToView [AEraseFrom 1 0 1]; UKernel 0 ToViewConst []] in
  obeys 0 us Owned [[]; []] [2; 2] = true /\
  meaning 0 us [[]; []] [2; 2] = Some [None; None; Some [[10]; [20]]; Some [[10]; [20]]; None; Some [[]; [21]; [5; 6; 7]]; None; None;
                                       Some [[21]; [5; 6; 8]]; Some [[21]; [5; 6; 8]]; Some [[21]; [6; 8]]; Some [[21]; [6; 8]]].
Proof. vm_compute. auto. Qed.
Example C74_case_general :
  tidy [true; true] (Some 0) [SHost (fun (n : nat) (_ : contents nat) => Ok (n, [[Some 1]; [Some 2; None]], [true; false], n)); SKernel 1 [true; false] (fun n cs => Ok (cs, n));
             SMove 1 true; SDirect 1 [false; true] (fun n cs => Ok (cs, n)); SMove 0 true; SHost (fun n cs => Ok (S n, cs, [false; false], n))].
Proof.
  assert (T : forall f (d : list bool), (forall n cs, exists n' ds r, f n cs = Ok (n', ds, d, r) /\ forall i x, nth_error d i = Some true -> nth_error ds i = Some x -> x <> []) -> @touches_memory nat nat nat f).
  { intros f d H n cs n' ds ts r i x E Ht Hd. destruct (H n cs) as (n2 & ds2 & r2 & E2 & Q). rewrite E in E2. injection E2 as -> -> -> ->. eauto. }
  cbn. split; [reflexivity|]. split.
  { apply (T _ [true; false]). intros n cs. do 3 eexists. split; [reflexivity|]. intros [|[|[|i]]]; cbn; try discriminate. intros x _ [= <-]. discriminate. }
  split; [lia|]. split; [lia|]. split; [reflexivity|]. split; [reflexivity|]. split.
  { right. intros [|[|[|i]]]; cbn; congruence. }
  split; [lia|]. split; [reflexivity|]. split; [|exact I].
  apply (T _ [false; false]). intros n cs. do 3 eexists. split; [reflexivity|]. intros [|[|[|i]]]; cbn; discriminate.
Qed.
