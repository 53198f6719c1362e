(** Property C76: what an exception leaves of an Array. Statements use ArraySpec, IndexingSpec and ThrowSpec only
    besides the modelled functions. *)
From Coq Require Import List Arith ZArith Lia Bool.
From Verif Require Import Base Mem BufferManip Indexing IndexingSpec Array ArraySpec CopyMove Throw ThrowSpec.
From Verif Require BaseProofs BufferManipProofs IndexingProofs ArrayProofs ArrayProofs2 ArrayProofs3 ThrowProofs ThrowProofs2 ThrowProofs3.
Import ListNotations.
Set Implicit Arguments.
Unset Strict Implicit.

Notation drive chk triv kind dflt h :=
  (run (vstep chk triv kind [0] dflt) h (new_array _ kind [0])).
Notation driveN chk perm dflt h :=
  (run (nstep chk false BMalloc perm dflt) h (new_array _ BMalloc perm)).

(** C76: one call on a one dimensional Array that any history produced, the (n+1)-th copy or assignment of an
    element throwing. With enough budget it is the call of C01; otherwise the damage is the one specified. *)
Theorem C76_call : forall V (dflt : V) chk h l c l' n,
  vectors dflt h [] = Some l -> vector dflt c l = Some l' ->
  exists a, drive chk false BMalloc dflt h = Ok a /\
    (cost c l <= n -> exists a', x_vstep chk false BMalloc [0] dflt n c a = XOk (n - cost c l) a' /\
       vstep chk false BMalloc [0] dflt c a = Ok a' /\ shows chk [0] a' l') /\
    (n < cost c l -> exists t, x_vstep chk false BMalloc [0] dflt n c a = XThrow Element t /\
       after chk (damage_of c l n) t l).
Proof.
  intros V dflt chk h l c l' n H X.
  destruct (@ArrayProofs3.vrun_ok V chk false BMalloc dflt h _ [] l eq_refl
     (ArrayProofs2.new_ok V false BMalloc ArrayProofs3.perm1 ArrayProofs3.nz1) H) as (a & E & A).
  exists a. split; [exact E|].
  pose proof (@ThrowProofs3.x_vstep_spec V chk dflt c a l l' n A X) as S.
  destruct (@ArrayProofs3.vstep_ok V chk false BMalloc dflt c a l l' A X (or_introl eq_refl)) as (a1 & E1 & A1 & _).
  destruct (x_vstep chk false BMalloc [0] dflt n c a) as [n' a'|w t|f]; cbn [ThrowProofs.xspec] in S; [| |contradiction].
  - destruct S as [-> E']. split; [|lia]. intros _. exists a'. rewrite Nat.add_sub. split; [reflexivity|]. split; [exact E'|].
    rewrite E1 in E'. injection E' as <-. exact (ArrayProofs3.arr_shows chk A1).
  - destruct S as (-> & L & AF). split; [lia|]. intros _. exists t. split; [reflexivity|].
    apply ThrowProofs3.after_after. exact AF.
Qed.
Print Assumptions C76_call.

(** C76: a program that catches every exception and goes on, while going on is possible. *)
Theorem C76_program : forall V (dflt : V) chk h l d,
  fate dflt h [] = Some (l, d) ->
  exists t, x_run chk dflt h (new_array V BMalloc [0]) = Ok t /\ after chk d t l.
Proof.
  intros V dflt chk h l d X.
  exact (@ThrowProofs3.x_run_spec V chk dflt h _ [] l d
    (ArrayProofs2.new_ok V false BMalloc ArrayProofs3.perm1 ArrayProofs3.nz1) X).
Qed.
Print Assumptions C76_program.

Example C76_case :
  (* append survives; an emplace in the middle, any growing resize and a partial insert do not *)
  fate 0 [(9, VEmplaceBack 1); (0, VEmplaceBack 2); (9, VEmplaceBack 3); (0, VSet 0%Z 7)] [] = Some ([1;3], Intact) /\
  fate 0 [(9, VEmplaceBack 1); (0, VEmplace 0%Z 2); (9, VEmplaceBack 3)] [] = Some ([1], Broken) /\
  fate 0 [(9, VEmplaceBack 1); (0, VEmplace 1%Z 2); (9, VEmplaceBack 3)] [] = Some ([1;3], Intact) /\
  fate 0 [(9, VEmplaceBack 1); (1, VInsert 0%Z [2;3])] [] = Some ([1], Leaks) /\
  fate 0 [(9, VEmplaceBack 1); (0, VInsert 0%Z [2;3])] [] = Some ([1], Broken) /\
  fate 0 [(2, VResize 3%Z)] [] = Some ([], Broken) /\
  x_vstep true false BMalloc [0] 0 2 (VResize 3%Z) (new_array nat BMalloc [0]) =
    XThrow Element (mkT [3%Z] [1] 0 [Obj 0; Obj 0; Raw]).
Proof. repeat split; vm_compute; reflexivity. Qed.

(** C76: any rank and permutation. The extents are the new ones already, and the destructor destroys slots that
    hold no object. *)
Theorem C76_extents : forall V (dflt : V) chk perm h dims r c dims' r' n,
  is_permutation perm (length perm) -> 0 < length perm -> Forall (static_ok (V:=V) (length perm)) (h ++ [c]) ->
  extents_after h (repeat 0 (length perm), 0) = Some (dims, r) -> extents c (dims, r) = Some (dims', r') ->
  exists a, driveN chk perm dflt h = Ok a /\
    (ncost c dims dims' <= n -> exists a', x_nstep chk false BMalloc perm dflt n c a = XOk (n - ncost c dims dims') a' /\
       nstep chk false BMalloc perm dflt c a = Ok a') /\
    (n < ncost c dims dims' -> exists t, x_nstep chk false BMalloc perm dflt n c a = XThrow Element t /\
       match c with
       | NSet _ _ => t = as_left a /\ t_dtor chk false BMalloc t = Ok tt
       | _ => t_dims t = map Z.of_nat dims' /\ t_dtor chk false BMalloc t = Fault FDestroy
       end).
Proof.
  intros V dflt chk perm h dims r c dims' r' n P NZ F X Y.
  apply Forall_app in F. destruct F as [F Fc]. inversion Fc as [|? ? Sc _]; subst.
  destruct (@ArrayProofs2.nrun_ok V chk false BMalloc perm dflt P NZ h (new_array V BMalloc perm) [] dims r eq_refl
    (ArrayProofs2.new_ok V false BMalloc P NZ) F X) as (a & E & (vs & A) & D & R). subst dims r.
  exists a. split; [exact E|].
  pose proof (@ThrowProofs2.x_nstep_spec V chk perm dflt P NZ c a vs dims' r' n A Sc Y) as S.
  destruct (x_nstep chk false BMalloc perm dflt n c a) as [n' a'|w t|f]; cbn [ThrowProofs.xspec] in S; [| |contradiction].
  - destruct S as [-> E']. split; [|lia]. intros _. exists a'. rewrite Nat.add_sub. auto.
  - destruct S as (-> & L & T). split; [lia|]. intros _. exists t. split; [reflexivity|].
    destruct c; auto. split; [exact T|]. rewrite T. eapply ThrowProofs3.dtor_left. exact A.
Qed.
Print Assumptions C76_extents.
Example C76_extents_case :
  (* a matrix of 2 x 2 widened by one column: the first construction of two throws *)
  match driveN false [0;1] 0 [NResize [2;2]%Z; NSetIndex 1%Z] with
  | Ok a => match x_nstep false false BMalloc [0;1] 0 0 (NResize1 3%Z) a with
            | XThrow Element t => t_dims t = [2;3]%Z /\ t_buf t = [Obj 0; Obj 0; Raw; Obj 0; Obj 0; Raw]
            | _ => False
            end
  | _ => False
  end.
Proof. vm_compute. auto. Qed.

(** C76: copy assignment between arrays of any rank: what remains depends on the two sizes. *)
Theorem C76_copy : forall V (dflt : V) chk perm h1 h2 dims1 r1 dims2 r2 n,
  is_permutation perm (length perm) -> 0 < length perm ->
  Forall (static_ok (V:=V) (length perm)) h1 -> Forall (static_ok (V:=V) (length perm)) h2 ->
  extents_after h1 (repeat 0 (length perm), 0) = Some (dims1, r1) ->
  extents_after h2 (repeat 0 (length perm), 0) = Some (dims2, r2) ->
  let s1 := extent_product dims1 in let s2 := extent_product dims2 in let k := (s2 - s1) + s2 in
  exists a b, driveN chk perm dflt h1 = Ok a /\ driveN chk perm dflt h2 = Ok b /\
    (k <= n -> exists a', x_copy_assign chk false BMalloc perm dflt n a b = XOk (n - k) a' /\
       array_assign chk false perm dflt a b = Ok a') /\
    (n < k -> exists t, x_copy_assign chk false BMalloc perm dflt n a b = XThrow Element t /\
       (s2 < s1 -> t_dtor chk false BMalloc t = Fault FDestroy) /\
       (s1 < s2 -> n <> 0 -> t_dtor chk false BMalloc t = Fault FLeak) /\
       (s1 < s2 -> n = 0 -> t_dtor chk false BMalloc t = Ok tt) /\
       (* equal sizes: a mixture of both contents under the old extents *)
       (s1 = s2 -> t_dtor chk false BMalloc t = Ok tt /\ t_dims t = map Z.of_nat dims1 /\
          forall i, i < s1 -> nth_error (t_buf t) i = nth_error (a_buf (if i <? n then b else a)) i)).
Proof.
  intros V dflt chk perm h1 h2 dims1 r1 dims2 r2 n P NZ F1 F2 X1 X2 s1 s2 k.
  destruct (@ArrayProofs2.nrun_ok V chk false BMalloc perm dflt P NZ h1 (new_array V BMalloc perm) [] dims1 r1 eq_refl
    (ArrayProofs2.new_ok V false BMalloc P NZ) F1 X1) as (a & E1 & (vs & A) & D1 & R1).
  destruct (@ArrayProofs2.nrun_ok V chk false BMalloc perm dflt P NZ h2 (new_array V BMalloc perm) [] dims2 r2 eq_refl
    (ArrayProofs2.new_ok V false BMalloc P NZ) F2 X2) as (b & E2 & (ws & B) & D2 & R2).
  exists a, b. split; [exact E1|]. split; [exact E2|].
  pose proof (@ThrowProofs3.x_copy_assign_spec V chk perm dflt a b vs ws n A B) as S.
  assert (L1 : length vs = s1) by (destruct A as (_ & _ & _ & L & _); unfold s1; rewrite L, D1; reflexivity).
  assert (L2 : length ws = s2) by (destruct B as (_ & _ & _ & L & _); unfold s2; rewrite L, D2; reflexivity).
  rewrite L1, L2 in S. clearbody s1 s2. pose proof B as (_ & _ & RB & _).
  destruct (x_copy_assign chk false BMalloc perm dflt n a b) as [n' a'|w t|f]; cbn [ThrowProofs.xspec] in S; [| |contradiction].
  - destruct S as (-> & A' & D' & E'). split; [|unfold k; lia]. intros _. exists a'. split; [f_equal; unfold k; lia|].
    unfold array_assign. destruct (copyInto chk false BMalloc (a_buf a) (size a) (a_buf b) (size b) dflt) as [bf| |]; try discriminate.
    cbn [bind] in *. injection E' as <-. unfold setSingleParameterResizeIndex. rewrite !BaseProofs.error_if_ok.
    + cbn. rewrite Nat2Z.id. reflexivity.
    + apply Z.leb_gt. lia.
    + apply Z.ltb_ge. lia.
  - destruct S as (-> & L & S1 & S2 & S3 & S4). split; [unfold k; lia|]. intros _. exists t. split; [reflexivity|].
    split; [exact S1|]. split; [exact S4|]. split.
    + intros Q Z. destruct (S3 Q Z) as (a2 & -> & _ & A2). eapply ThrowProofs3.dtor_left. exact A2.
    + intros Q. destruct (S2 (eq_sym Q)) as (a2 & -> & D' & A2). split; [eapply ThrowProofs3.dtor_left; exact A2|].
      split; [cbn; rewrite D', D1; reflexivity|]. intros i Hi.
      pose proof (@ArrayProofs2.arr_storage V false perm a vs A) as (ra & Ba & _).
      pose proof (@ArrayProofs2.arr_storage V false perm b ws B) as (rb & Bb & _).
      pose proof (@ArrayProofs2.arr_storage V false perm a2 _ A2) as (r2' & B2 & _).
      cbn [as_left t_buf]. rewrite B2. rewrite nth_error_app1 by (rewrite map_length, app_length, firstn_length, skipn_length; lia).
      destruct (Nat.ltb_spec i n).
      * rewrite Bb, (@nth_error_app1 _ (map Obj ws)) by (rewrite map_length; lia).
        rewrite map_app, nth_error_app1 by (rewrite map_length, firstn_length; lia).
        rewrite <- (firstn_skipn n ws) at 2. rewrite map_app, nth_error_app1 by (rewrite map_length, firstn_length; lia). reflexivity.
      * rewrite Ba, (@nth_error_app1 _ (map Obj vs)) by (rewrite map_length; lia).
        rewrite map_app, nth_error_app2 by (rewrite map_length, firstn_length; lia).
        rewrite <- (firstn_skipn n vs) at 2.
        rewrite map_app, (@nth_error_app2 _ (map Obj (firstn n vs))) by (rewrite map_length, firstn_length; lia).
        rewrite !map_length, !firstn_length. f_equal. lia.
Qed.
Print Assumptions C76_copy.
Example C76_copy_case :
  let mk ds := match driveN true [0] 5 [NResize [ds]%Z] with Ok a => a | _ => new_array nat BMalloc [0] end in
  let dt x := match x with XThrow Element t => t_dtor true false BMalloc t | _ => Abort end in
  dt (x_copy_assign true false BMalloc [0] 5 1 (mk 3%Z) (mk 2%Z)) = Fault FDestroy /\
  dt (x_copy_assign true false BMalloc [0] 5 1 (mk 2%Z) (mk 3%Z)) = Fault FLeak /\
  dt (x_copy_assign true false BMalloc [0] 5 1 (mk 2%Z) (mk 2%Z)) = Ok tt.
Proof. repeat split; vm_compute; reflexivity. Qed.

(** C76: the two constructors that build elements delegate, so the destructor runs on what they leave: Array( dims )
    always destroys slots that hold no object, a copy constructor forgets the objects it has built. *)
Theorem C76_constructors_refuted : forall V (dflt : V) chk perm,
  is_permutation perm (length perm) -> 0 < length perm ->
  (forall dims n, length dims = length perm -> Forall (fun d => (0 <= d)%Z) dims ->
     n < extent_product (map Z.to_nat dims) ->
     x_ctor_dims chk false BMalloc perm dflt n dims = XThrow Element (Fault FDestroy)) /\
  (forall h dims r b n, Forall (static_ok (V:=V) (length perm)) h ->
     extents_after h (repeat 0 (length perm), 0) = Some (dims, r) -> driveN chk perm dflt h = Ok b ->
     n < 2 * extent_product dims ->
     x_ctor_copy chk false BMalloc perm dflt n b = XThrow Element (if n =? 0 then Ok tt else Fault FLeak)).
Proof.
  intros V dflt chk perm P NZ. pose proof (ArrayProofs2.new_ok V false BMalloc P NZ) as N0.
  assert (Z0 : extent_product (repeat 0 (length perm)) = 0) by (destruct (length perm); [lia|reflexivity]).
  split.
  - intros dims n L F Hn. unfold x_ctor_dims.
    assert (Y : extents (NResize dims : ncall V) (a_dims (new_array V BMalloc perm), a_rix (new_array V BMalloc perm)) = Some (map Z.to_nat dims, 0)).
    { cbn. rewrite repeat_length, L, Nat.eqb_refl. cbn. replace (forallb (fun d => (0 <=? d)%Z) dims) with true; auto.
      symmetry. apply forallb_forall. rewrite Forall_forall in F. intros x Hx. apply Z.leb_le. auto. }
    pose proof (@ThrowProofs2.x_nstep_spec V chk perm dflt P NZ (NResize dims) _ [] _ _ n N0 I Y) as S.
    cbn [x_nstep] in S.
    destruct (x_resize_dims chk false BMalloc perm dflt n (new_array V BMalloc perm) dims) as [n' a'|w t|f];
      cbn [ThrowProofs.xspec] in S; [| |contradiction].
    + destruct S as [-> _]. unfold ncost in Hn. cbn [a_dims new_array ncost] in Hn. unfold ncost in *. cbn [new_array a_dims] in *. rewrite Z0 in *. lia.
    + destruct S as (-> & _ & _ & S). cbn. rewrite S. reflexivity.
  - intros h dims r b n F X E Hn. unfold x_ctor_copy.
    destruct (@ArrayProofs2.nrun_ok V chk false BMalloc perm dflt P NZ h (new_array V BMalloc perm) [] dims r eq_refl
      N0 F X) as (b' & E2 & (ws & B) & D2 & R2).
    rewrite E in E2. injection E2 as <-.
    pose proof (@ThrowProofs3.x_copy_assign_spec V chk perm dflt _ b [] ws n N0 B) as S.
    assert (L2 : length ws = extent_product dims) by (destruct B as (_ & _ & _ & L & _); rewrite L, D2; reflexivity).
    destruct (x_copy_assign chk false BMalloc perm dflt n (new_array V BMalloc perm) b) as [n' a'|w t|f];
      cbn [ThrowProofs.xspec length] in S; [| |contradiction].
    + destruct S as (-> & _). lia.
    + destruct S as (-> & _ & _ & _ & S3 & S4). cbn. f_equal. destruct (Nat.eqb_spec n 0).
      * destruct S3 as (a2 & -> & _ & A2); [lia|auto|]. eapply ThrowProofs3.dtor_left. exact A2.
      * apply S4; auto. lia.
Qed.
Print Assumptions C76_constructors_refuted.
Example C76_constructors_case :
  x_ctor_dims true false BMalloc [0;1] 0 3 [2;2]%Z = XThrow Element (Fault FDestroy) /\
  (exists a, x_ctor_dims true false BMalloc [0;1] 0 4 [2;2]%Z = XOk 0 a).
Proof. split; [vm_compute; reflexivity|]. eexists. vm_compute. reflexivity. Qed.

(** C76: an error handler that throws (system.hpp:68). One dimension, bounds checks on: a rejected argument leaves the
    array as it was. *)
Theorem C76_errors : forall V (dflt : V) triv h l c n,
  vectors dflt h [] = Some l -> vector dflt c l = None -> c <> VPopBack ->
  exists a, drive true triv BMalloc dflt h = Ok a /\
    x_vstep true triv BMalloc [0] dflt n c a = XThrow Error (as_left a).
Proof.
  intros V dflt triv h l c n H X N.
  destruct (@ArrayProofs3.vrun_ok V true triv BMalloc dflt h _ [] l eq_refl
     (ArrayProofs2.new_ok V triv BMalloc ArrayProofs3.perm1 ArrayProofs3.nz1) H) as (a & E & A).
  exists a. split; [exact E|]. eapply ThrowProofs3.x_error1; eauto.
Qed.
Print Assumptions C76_errors.
Example C76_errors_case :
  x_vstep true false BMalloc [0] 0 9 (VEmplace 5%Z 1) (mkArray [1] [1] 0 [Obj 3]) = XThrow Error (mkT [1%Z] [1] 0 [Obj 3]).
Proof. vm_compute. reflexivity. Qed.

(** C76: more dimensions. A negative extent is stored before it is rejected: the array keeps its elements in the buffer
    and forgets how many there are. *)
Theorem C76_extent_errors_refuted : forall V (dflt : V) chk perm h dims r c n,
  is_permutation perm (length perm) -> 0 < length perm -> Forall (static_ok (V:=V) (length perm)) (h ++ [c]) ->
  extents_after h (repeat 0 (length perm), 0) = Some (dims, r) -> extents c (dims, r) = None ->
  match c with NResize ds => length ds = length perm | NResizeDimension _ => True | _ => False end ->
  exists a t, driveN chk perm dflt h = Ok a /\ x_nstep chk false BMalloc perm dflt n c a = XThrow Error t /\
    t_buf t = a_buf a /\ (t_size t <= 0)%Z /\
    t_dtor false false BMalloc t = (if extent_product dims =? 0 then Ok tt else Fault FLeak) /\
    ((t_size t < 0)%Z -> t_dtor true false BMalloc t = Abort).
Proof.
  intros V dflt chk perm h dims r c n P NZ F X Y SH.
  apply Forall_app in F. destruct F as [F Fc]. inversion Fc as [|? ? Sc _]; subst.
  destruct (@ArrayProofs2.nrun_ok V chk false BMalloc perm dflt P NZ h (new_array V BMalloc perm) [] dims r eq_refl
    (ArrayProofs2.new_ok V false BMalloc P NZ) F X) as (a & E & (vs & A) & D & R). subst dims r.
  pose proof A as (L & _ & _ & LV & _). rewrite <- LV.
  assert (K : forall ps, Forall (fun p => fst p < length perm) ps -> forallb (fun p => (0 <=? snd p)%Z) ps = false ->
    x_nstep chk false BMalloc perm dflt n c a = x_reshape chk false BMalloc perm dflt n a ps ->
    exists a0 t, driveN chk perm dflt h = Ok a0 /\ x_nstep chk false BMalloc perm dflt n c a0 = XThrow Error t /\
      t_buf t = a_buf a0 /\ (t_size t <= 0)%Z /\
      t_dtor false false BMalloc t = (if length vs =? 0 then Ok tt else Fault FLeak) /\
      ((t_size t < 0)%Z -> t_dtor true false BMalloc t = Abort)).
  { intros ps Fp Bp Ex. destruct (@ThrowProofs3.x_reshape_error V chk perm dflt a vs ps n A Fp Bp) as (t & Et & S1 & S2 & S3).
    exists a, t. rewrite Ex. repeat (split; auto). intros Ng. unfold t_dtor. apply Z.ltb_lt in Ng. rewrite Ng. reflexivity. }
  destruct c; try contradiction; cbn [extents] in Y.
  - apply (K (combine (seq 0 (length perm)) dims)).
    + apply Forall_forall. intros [i d] Hi. apply in_combine_l in Hi. apply in_seq in Hi. cbn. lia.
    + rewrite L, SH, Nat.eqb_refl in Y. cbn in Y. destruct (forallb (fun d => (0 <=? d)%Z) dims) eqn:Ef; [discriminate|].
      clear -Ef SH. rewrite <- SH. generalize 0 as k.
      clear SH. induction dims as [|d ds IH]; intros k; cbn in *; [discriminate|]. destruct (0 <=? d)%Z; cbn in *; auto.
    + cbn [x_nstep]. unfold x_resize_dims. rewrite SH, Nat.eqb_refl. reflexivity.
  - apply (K pairs); auto. destruct (forallb (fun p => (0 <=? snd p)%Z) pairs); auto; discriminate.
Qed.
Print Assumptions C76_extent_errors_refuted.

(** C76: a fixed buffer of L places. resize beyond L stores the new size and then fails: size() is larger than the
    buffer, and the next check of the buffer, in the destructor, ends the program. *)
Theorem C76_stack_errors_refuted : forall V (dflt : V) chk triv L h l m n,
  vectors dflt h [] = Some l -> fits dflt L h [] -> L < m ->
  exists a, drive chk triv (BStack L) dflt h = Ok a /\
    let t := mkT [Z.of_nat m] [1] 0 (a_buf a) in
    x_vstep chk triv (BStack L) [0] dflt n (VResize (Z.of_nat m)) a = XThrow Error t /\
    (t_size t > Z.of_nat (length (t_buf t)))%Z /\ t_dtor true triv (BStack L) t = Abort.
Proof.
  intros V dflt chk triv L h l m n H F Hm.
  destruct (@ArrayProofs3.vrun_stack V chk triv (BStack L) dflt L h _ [] l eq_refl
        (ArrayProofs2.new_ok V triv (BStack L) ArrayProofs3.perm1 ArrayProofs3.nz1) (repeat_length _ _) H) as [[_ (a & E & A & C)]|[N _]]; [|contradiction].
  exists a. split; [exact E|]. cbv zeta.
  assert (SZ : t_size (mkT [Z.of_nat m] [1] 0 (a_buf a)) = Z.of_nat m) by (unfold t_size; cbn [t_dims fold_right]; lia).
  split; [|split].
  - cbn [x_vstep]. apply ThrowProofs3.x_error_stack with (l := l); auto.
  - rewrite SZ. cbn [t_buf]. rewrite C. lia.
  - unfold t_dtor. rewrite SZ. rewrite BaseProofs.check_if_ok by (apply Z.ltb_ge; lia). cbn [bind t_buf]. rewrite Nat2Z.id.
    unfold BufferManip.free, BufferManip.check. unfold check_if.
    replace (BufferManip.capacity (a_buf a) <? m) with true by (symmetry; apply Nat.ltb_lt; unfold BufferManip.capacity; lia).
    reflexivity.
Qed.
Print Assumptions C76_stack_errors_refuted.
Example C76_errors_refuted_case :
  x_vstep false true (BStack 2) [0] 0 9 (VResize 5%Z) (new_array nat (BStack 2) [0]) = XThrow Error (mkT [5%Z] [1] 0 [Raw; Raw]) /\
  (a <- driveN true [0;1] 0 [NResize [2;1]%Z] ;;
   match x_nstep true false BMalloc [0;1] 0 9 (NResize [3;-1]%Z) a with
   | XThrow Error t => Ok (t_dims t, t_buf t) | _ => Abort end) = Ok ([3;-1]%Z, [Obj 0; Obj 0]).
Proof. split; vm_compute; reflexivity. Qed.
