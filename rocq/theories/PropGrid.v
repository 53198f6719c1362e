(** Properties C70 and C71: the values of an N-dimensional Array. Statements use GridSpec and UninitSpec besides the modelled
    functions. *)
From Coq Require Import List Arith ZArith Lia Bool.
From Verif Require Import Base BaseProofs BufferManip Indexing IndexingSpec Array ArraySpec GridSpec Uninit UninitSpec.
From Verif Require ArrayProofs2 GridProofs UninitProofs.
Import ListNotations.
Set Implicit Arguments.
Unset Strict Implicit.

(** The order of memory: each index of the array once, and nothing else. *)
Theorem C70_places : forall perm dims, is_permutation perm (length perm) -> length dims = length perm ->
  NoDup (places perm dims) /\ (forall t, In t (places perm dims) <-> Forall2 lt t dims) /\ length (places perm dims) = extent_product dims.
Proof.
  intros perm dims P L. split; [apply GridProofs.places_nodup; auto|]. split; [intros t; apply GridProofs.places_in; auto|apply GridProofs.places_length; auto].
Qed.
Print Assumptions C70_places.
Example C70_places_case : places [1; 0] [2; 3] = [[0;0]; [1;0]; [0;1]; [1;1]; [0;2]; [1;2]] /\ places [0; 1] [2; 3] = [[0;0]; [0;1]; [0;2]; [1;0]; [1;1]; [1;2]].
Proof. vm_compute. auto. Qed.

(** For every order of the dimensions and every history of calls within their preconditions: each call succeeds, the array has
    the extents and at every index the value of the specification, its memory holds exactly these values in its order, and it
    can be destroyed without a leak. *)
Theorem C70_values : forall V (dflt : V) chk triv perm h g, is_permutation perm (length perm) -> 0 < length perm ->
  Forall (static_ok (length perm)) h -> grid_run perm dflt h (new_grid V perm) = Some g ->
  exists a, run (nstep chk triv BMalloc perm dflt) h (new_array V BMalloc perm) = Ok a /\
    gshows perm chk a g /\ storage triv a (g_vals g) /\ dtor chk triv BMalloc a = Ok tt.
Proof.
  intros V dflt chk triv perm h g P NZ SO X.
  destruct (GridProofs.run_gok chk P NZ (GridProofs.new_gok V triv P NZ) SO X) as (a & E & G).
  exists a. split; [exact E|]. split; [apply (GridProofs.gok_shows chk P NZ G)|]. destruct G as (A & _).
  split; [apply (ArrayProofs2.arr_storage A)|apply (ArrayProofs2.dtor_ok chk BMalloc A)].
Qed.
Print Assumptions C70_values.
(** Extents 2 x 3 with the first dimension fastest, one value written, dimension 1 grown, then dimension 0, then all extents
    changed at once: the values then stay where they are in memory. *)
Example C70_values_case :
  let h := [NResize [2; 3]%Z; NSet [1; 2]%Z 7; NSet [0; 1]%Z 4; NResize1 3%Z; NSetIndex 1%Z; NResizeDefault 2%Z 9; NResizeDefault 4%Z 9] in
  option_map (@g_vals nat) (grid_run [1; 0] 0 h (new_grid nat [1; 0])) = Some [0;0;0; 4;0;0; 9;9;9; 9;9;9] /\
  option_map (@g_vals nat) (grid_run [1; 0] 0 (h ++ [NResize [2; 2]%Z]) (new_grid nat [1; 0])) = Some [0;0;0;4] /\
  (a <- run (nstep true false BMalloc [1; 0] 0) (h ++ [NResize [2; 2]%Z]) (new_array nat BMalloc [1; 0]) ;; at_ true [1; 0] a [1; 1]%Z) = Ok 4.
Proof. vm_compute. auto. Qed.

(** With bounds checks a call outside its precondition ends the program, except writing with the wrong number of indices (which
    does not compile). *)
Theorem C70_checked : forall V (dflt : V) triv perm h g c a, is_permutation perm (length perm) -> 0 < length perm ->
  Forall (static_ok (length perm)) h -> grid_run perm dflt h (new_grid V perm) = Some g ->
  run (nstep true triv BMalloc perm dflt) h (new_array V BMalloc perm) = Ok a ->
  static_ok (length perm) c -> grid_step perm dflt c g = None -> (forall idx v, c = NSet idx v -> length idx = length perm) ->
  nstep true triv BMalloc perm dflt c a = Abort.
Proof.
  intros V dflt triv perm h g c a P NZ SO X E Sc Y Q.
  destruct (GridProofs.run_gok true P NZ (GridProofs.new_gok V triv P NZ) SO X) as (a' & E' & G). rewrite E in E'. injection E' as <-.
  destruct (GridProofs.step_abort NZ eq_refl G Sc Y) as [A|(idx & v & -> & N)]; [exact A|]. destruct N. eapply Q. reflexivity.
Qed.
Print Assumptions C70_checked.
Example C70_checked_case :
  let h := [NResize [2; 3]%Z] in
  match grid_run [1; 0] 0 h (new_grid nat [1; 0]) with Some g => grid_step [1; 0] 0 (NSet [1; 3]%Z 5) g | None => None end = None /\
  run (nstep true true BMalloc [1; 0] 0) (h ++ [NSet [1; 3]%Z 5]) (new_array nat BMalloc [1; 0]) = Abort.
Proof. vm_compute. auto. Qed.

(** Memory is moved only when there is no room: the room after each call. *)
Theorem C70_room : forall V (dflt : V) chk triv perm h g c g' a, is_permutation perm (length perm) -> 0 < length perm ->
  Forall (static_ok (length perm)) (h ++ [c]) -> grid_run perm dflt h (new_grid V perm) = Some g -> grid_step perm dflt c g = Some g' ->
  run (nstep chk triv BMalloc perm dflt) h (new_array V BMalloc perm) = Ok a ->
  exists a', nstep chk triv BMalloc perm dflt c a = Ok a' /\ capacity a' = room_after c g' (capacity a).
Proof.
  intros V dflt chk triv perm h g c g' a P NZ SO X Y E. apply Forall_app in SO. destruct SO as [SO Sc]. inversion Sc; subst.
  destruct (GridProofs.run_gok chk P NZ (GridProofs.new_gok V triv P NZ) SO X) as (a1 & E1 & G). rewrite E in E1. injection E1 as <-.
  destruct (GridProofs.step_gok chk P NZ G H1 Y) as (a' & E' & _ & C). exists a'. split; [exact E'|exact C].
Qed.
Print Assumptions C70_room.
Example C70_room_case :
  (a <- run (nstep true true BMalloc [0; 1] 0) [NResize [2; 3]%Z; NResize [1; 2]%Z; NResize1 3%Z] (new_array nat BMalloc [0; 1]) ;; Ok (capacity a)) = Ok 6.
Proof. vm_compute. reflexivity. Qed.

(** C71: resizeWithoutInitializationOrDestruction. After any history of the other calls, any sequence of such resizes and writes
    succeeds, and the array has the extents asked for and at every index whose value is known that value: known are the values
    that stay within the memory of the array, and those written. *)
Theorem C71_known : forall V (dflt : V) chk perm h g u kg, is_permutation perm (length perm) -> 0 < length perm ->
  Forall (static_ok (length perm)) h -> grid_run perm dflt h (new_grid V perm) = Some g -> urun_spec perm u (all_known g) = Some kg ->
  exists a a', run (nstep chk true BMalloc perm dflt) h (new_array V BMalloc perm) = Ok a /\ urun chk BMalloc perm u a = Ok a' /\
    a_dims a' = g_dims kg /\ a_rix a' = g_rix kg /\
    forall t v, Forall2 lt t (g_dims kg) -> value perm kg t = Some (Some v) -> at_ chk perm a' (map Z.of_nat t) = Ok v.
Proof.
  intros V dflt chk perm h g u kg P NZ SO X Y.
  destruct (GridProofs.run_gok chk P NZ (GridProofs.new_gok V true P NZ) SO X) as (a & E & G).
  destruct (UninitProofs.urun_pok chk P NZ (UninitProofs.gok_pok G) Y) as (a' & E' & G'). exists a, a'. split; [exact E|]. split; [exact E'|].
  pose proof G' as (_ & _ & _ & D & R & _). split; [exact D|]. split; [exact R|]. intros t v F Q.
  eapply UninitProofs.pok_at; eauto.
  - rewrite D. apply IndexingProofs.valid_of_nat. exact F.
  - rewrite map_map. erewrite map_ext; [rewrite map_id; exact Q|]. intros. apply Nat2Z.id.
Qed.
Print Assumptions C71_known.
(** A vector keeps its values. *)
Example C71_known_case :
  let h := [NResize [2]%Z; NSet [0]%Z 5; NSet [1]%Z 6] in let u := [UResize [4]%Z; USet [3]%Z 8] in
  option_map (fun g => option_map (@g_vals (option nat)) (urun_spec [0] u (all_known g))) (grid_run [0] 0 h (new_grid nat [0])) =
    Some (Some [Some 5; Some 6; None; Some 8]).
Proof. vm_compute. reflexivity. Qed.

(** Once every value is known the array is one like any other: what follows behaves as specified. *)
Theorem C71_then_all_known : forall V (dflt : V) chk perm h g u kg l h' g', is_permutation perm (length perm) -> 0 < length perm ->
  Forall (static_ok (length perm)) (h ++ h') -> grid_run perm dflt h (new_grid V perm) = Some g -> urun_spec perm u (all_known g) = Some kg ->
  g_vals kg = map Some l -> grid_run perm dflt h' (mkG (g_dims kg) (g_rix kg) l) = Some g' ->
  exists a, (a1 <- run (nstep chk true BMalloc perm dflt) h (new_array V BMalloc perm) ;; a2 <- urun chk BMalloc perm u a1 ;;
    run (nstep chk true BMalloc perm dflt) h' a2) = Ok a /\ gshows perm chk a g' /\ storage true a (g_vals g').
Proof.
  intros V dflt chk perm h g u kg l h' g' P NZ SO X Y K Z. apply Forall_app in SO. destruct SO as [SO SO'].
  destruct (GridProofs.run_gok chk P NZ (GridProofs.new_gok V true P NZ) SO X) as (a & E & G).
  destruct (UninitProofs.urun_pok chk P NZ (UninitProofs.gok_pok G) Y) as (a' & E' & G').
  destruct (GridProofs.run_gok chk P NZ (UninitProofs.pok_gok G' K) SO' Z) as (a2 & E2 & G2).
  exists a2. rewrite E. cbn [bind]. rewrite E'. cbn [bind]. split; [exact E2|]. split; [apply (GridProofs.gok_shows chk P NZ G2)|].
  destruct G2 as (A & _). apply (ArrayProofs2.arr_storage A).
Qed.
Print Assumptions C71_then_all_known.
Example C71_then_case :
  let u := [UResize [2; 2]%Z; USet [0; 0]%Z 1; USet [1; 0]%Z 2; USet [0; 1]%Z 3; USet [1; 1]%Z 4] in
  option_map (@g_vals (option nat)) (urun_spec [1; 0] u (all_known (new_grid nat [1; 0]))) = Some (map Some [1; 2; 3; 4]) /\
  (a <- urun true BMalloc [1; 0] u (new_array nat BMalloc [1; 0]) ;; a <- nstep true true BMalloc [1; 0] 0 (NResize1 3%Z) a ;;
   x <- at_ true [1; 0] a [1; 1]%Z ;; y <- at_ true [1; 0] a [2; 1]%Z ;; Ok (x, y)) = Ok (4, 0).
Proof. vm_compute. auto. Qed.

(** Nothing more can be said: reading an element that is not known reads memory without an object. *)
Theorem C71_unknown_refuted : exists perm u kg a, urun_spec perm u (all_known (new_grid nat perm)) = Some kg /\ value perm kg [0; 1] = Some None /\
  urun true BMalloc perm u (new_array nat BMalloc perm) = Ok a /\ at_ true perm a [0; 1]%Z = Fault FRead.
Proof. exists [0; 1], [UResize [2; 2]%Z; USet [0; 0]%Z 1]. eexists. eexists. split; [vm_compute; reflexivity|]. vm_compute. auto. Qed.
Print Assumptions C71_unknown_refuted.
(** With more than one dimension the values do not stay at their indices (as documented). *)
Theorem C71_moved_refuted : exists perm h g u kg, grid_run perm 0 h (new_grid nat perm) = Some g /\ urun_spec perm u (all_known g) = Some kg /\
  value perm g [1; 0] = Some 6 /\ value perm kg [1; 0] = Some None /\ value perm kg [0; 1] = Some (Some 6).
Proof. exists [0; 1], [NResize [2; 1]%Z; NSet [0; 0]%Z 5; NSet [1; 0]%Z 6]. eexists. exists [UResize [2; 2]%Z]. eexists. split; [vm_compute; reflexivity|]. vm_compute. auto. Qed.
Print Assumptions C71_moved_refuted.
