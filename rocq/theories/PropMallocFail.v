(** C93: a std::malloc that fails. *)
From Coq Require Import List Arith ZArith Lia Bool.
From Verif Require Import Base BaseProofs Mem BufferManip Array ArraySpec Debug DebugProofs MallocFail MallocFailProofs PropArray PropDebug.
From Verif Require ArrayProofs ArrayProofs2 ArrayProofs3 ArrayProofs4 BufferManipProofs ArrayManip.
Import ListNotations.
Set Implicit Arguments.

(** A default constructed array taken through calls, each with the answer of std::malloc *)
Notation with_malloc dbg chk triv dflt h := (m_run dbg chk triv dflt h (m_new _)).

Section Runs.
Variables dbg chk : bool.
Variable V : Type.
Variable triv : bool.
Variable dflt : V.
Definition failed (h : list (vcall V * bool)) : Prop := exists c, In (c, false) h.
Definition idle (h : list (vcall V * bool)) : Prop := exists pos ok, In (VInsert pos [], ok) h.
Lemma inv_mono (w w' : Prop) (s : marray V) l : (w -> w') -> inv triv w s l -> inv triv w' s l.
Proof. intros W [A [E|(X & B & C)]]; split; auto. Qed.
Lemma run_inv h : forall (w : Prop) s l l', inv triv w s l -> vectors dflt (map fst h) l = Some l' ->
  (exists s', m_run dbg chk triv dflt h s = Ok s' /\ inv triv (w \/ failed h) s' l') \/
  (m_run dbg chk triv dflt h s = bad dbg /\ (w \/ failed h)) \/
  (m_run dbg chk triv dflt h s = Abort /\ dbg = true /\ idle h).
Proof.
  induction h as [|[c ok] h IH]; intros w s l l' I X; cbn [map fst vectors m_run] in *.
  - injection X as <-. left. exists s. split; auto. revert I. apply inv_mono. auto.
  - destruct (vector dflt c l) as [l1|] eqn:Y; [ | discriminate ].
    assert (M : (w \/ ok = false) -> w \/ failed ((c, ok) :: h)).
    { intros [H| ->]; [ auto | right; exists c; simpl; auto ]. }
    assert (M2 : failed h -> failed ((c, ok) :: h)) by (intros [d Hd]; exists d; simpl; auto).
    destruct (@step_inv dbg chk V triv dflt w ok c s l l1 I Y) as [(s1 & E & I1)|[[E W]|(pos & -> & D & E)]]; rewrite E.
    + cbn [bind]. destruct (IH _ s1 l1 l' I1 X) as [(s' & E' & I')|[[E' W]|(E' & D & P & o & Hp)]].
      * left. exists s'. split; auto. revert I'. apply inv_mono. tauto.
      * right; left. split; [ exact E' | tauto ].
      * right; right. split; [ exact E' | ]. split; auto. exists P, o. simpl. auto.
    + right; left. split; [ unfold bad; destruct dbg; reflexivity | tauto ].
    + right; right. split; [ reflexivity | ]. split; auto. exists pos, ok. simpl. auto.
Qed.
Lemma new_inv : inv triv False (m_new V) [].
Proof. split; [ exact (ArrayProofs2.new_ok V triv BMalloc ArrayProofs3.perm1 ArrayProofs3.nz1) | left; reflexivity ]. Qed.
Lemma dtor_inv w (s : marray V) l : inv triv w s l -> m_dtor dbg chk triv s = Ok tt.
Proof.
  intros I. pose proof (inv_cap I) as L. destruct s as [cap a]. destruct I as [A N]. cbn [fst snd] in *.
  pose proof (@ArrayProofs2.dtor_ok V chk triv BMalloc [0] a l A) as E. apply (@i_dtor dbg chk BMalloc) in E.
  pose proof (ArrayProofs4.arr_cap A) as L2. unfold Array.capacity, BufferManip.capacity in L2.
  unfold a_dtor, b_free in E. unfold m_dtor, m_free, m_of. cbn [fst snd]. rewrite (ArrayProofs.size_ok A) in *.
  rewrite chk_ok by auto. rewrite BufferManipProofs.check_ok in E by auto. cbn [bind] in *.
  destruct (d_destroy _ _ _ _ _ _); try discriminate. cbn [bind] in *. destruct (release _ _); try discriminate. reflexivity.
Qed.
End Runs.

(** Every valid history, whatever std::malloc answers: when it returns, the array is the vector and can be destroyed.
    A release build can instead access memory through the null pointer, never abort; a debug build can
    abort, never access anything wrongly. Either needs a failed allocation, except for the insertion of nothing (C87). *)
Theorem C93_vector_or_not : forall V (dflt : V) dbg chk triv h l,
  vectors dflt (map fst h) [] = Some l ->
  match with_malloc dbg chk triv dflt h with
  | Ok s => shows chk [0] (snd s) l /\ length l <= m_capacity s /\ m_dtor dbg chk triv s = Ok tt
  | Abort => dbg = true /\ ((exists c, In (c, false) h) \/ exists pos ok, In (VInsert pos [], ok) h)
  | Fault f => dbg = false /\ f = FOob /\ exists c, In (c, false) h
  end.
Proof.
  intros V dflt dbg chk triv h l X.
  destruct (@run_inv dbg chk V triv dflt h False (m_new V) [] l (new_inv V triv) X) as [(s & -> & I)|[[-> W]|(-> & D & I)]].
  - split; [ | split; [ exact (inv_cap I) | exact (dtor_inv dbg chk I) ] ].
    destruct I as [A _]. apply ArrayProofs3.arr_shows with (triv := triv). exact A.
  - assert (F : failed h) by tauto. unfold bad. destruct dbg; auto.
  - auto.
Qed.
Print Assumptions C93_vector_or_not.

(** With elements in the array, a call that needs more room than there is and does not get it: an access through the
    null pointer in a release build, an abort in a debug build. *)
Theorem C93_elements_lost : forall V (dflt : V) dbg chk triv h l s c,
  vectors dflt (map fst h) [] = Some l -> with_malloc dbg chk triv dflt h = Ok s ->
  l <> [] -> vector dflt c l <> None -> m_capacity s < need c l ->
  with_malloc dbg chk triv dflt (h ++ [(c, false)]) = if dbg then Abort else Fault FOob.
Proof.
  intros V dflt dbg chk triv h l s c X E NE Y G.
  assert (R : forall h1 h2 s0, m_run dbg chk triv dflt (h1 ++ h2) s0 = (b <- m_run dbg chk triv dflt h1 s0 ;; m_run dbg chk triv dflt h2 b)).
  { induction h1 as [|[d o] h1 IH]; intros h2 s0; cbn [m_run app]; [ reflexivity | ]. destruct (m_step _ _ _ _ _ _ _); cbn [bind]; auto. }
  rewrite R, E. cbn [bind m_run].
  destruct (@run_inv dbg chk V triv dflt h False (m_new V) [] l (new_inv V triv) X) as [(s' & E' & I)|[[E' W]|(E' & D & I)]];
    rewrite E in E'; [ | unfold bad in E'; destruct dbg; discriminate | discriminate ]. injection E' as <-.
  destruct (vector dflt c l) as [l1|] eqn:Z; [ | destruct (Y eq_refl) ].
  pose proof (inv_cap I) as L. destruct s as [cap a]. destruct I as [A _].
  rewrite (@step_lost dbg chk V triv dflt cap a l c l1 A NE L Z G). unfold bad. destruct dbg; reflexivity.
Qed.
Print Assumptions C93_elements_lost.

(** When every allocation succeeds this is the array of the other theorems (C01, C87), with its capacity. *)
Theorem C93_no_failure : forall V (dflt : V) dbg chk triv h l,
  vectors dflt h [] = Some l ->
  with_malloc dbg chk triv dflt (map (fun c => (c, true)) h) =
  (a <- run (a_vstep dbg chk BMalloc triv [0] dflt) h (new_array V BMalloc [0]) ;; Ok (capacity a, a)).
Proof.
  intros V dflt dbg chk triv h l X.
  assert (H : forall h a l0 l', ArrayProofs.arr_ok triv [0] a l0 -> vectors dflt h l0 = Some l' ->
    m_run dbg chk triv dflt (map (fun c => (c, true)) h) (capacity a, a) =
    (a' <- run (a_vstep dbg chk BMalloc triv [0] dflt) h a ;; Ok (capacity a', a'))).
  { clear. induction h as [|c h IH]; intros a l0 l' A X; [ reflexivity | ]. cbn [map m_run run vectors] in *.
    destruct (vector dflt c l0) as [l1|] eqn:Y; [ | discriminate ].
    rewrite (@step_plain dbg chk V triv dflt true (capacity a) a l0 c l1 A (ArrayProofs4.arr_cap A) Y); [ | | right; reflexivity ].
    2: { unfold plain, Array.capacity, BufferManip.capacity. destruct (le_lt_dec (need c l0) (length (a_buf a))); [ right | left ]; auto. }
    destruct (@ArrayProofs3.vstep_ok V chk triv BMalloc dflt c a l0 l1 A Y (or_introl eq_refl)) as (a1 & E & A1 & C).
    destruct (a_vstep dbg chk BMalloc triv [0] dflt c a) as [a2| |f] eqn:E2; cbn [bind]; auto.
    assert (a2 = a1) as ->.
    { destruct dbg.
      - pose proof (DebugAdds.s_vstep true chk BMalloc triv [0] dflt c a) as S. destruct S as [S|S]; congruence.
      - pose proof (DebugAdds.s_vstep false chk BMalloc triv [0] dflt c a) as S. destruct S as [S|S]; congruence. }
    unfold Array.capacity, BufferManip.capacity in *. rewrite <- C. exact (IH a1 l1 l' A1 X). }
  exact (H h (new_array V BMalloc [0]) [] l (ArrayProofs2.new_ok V triv BMalloc ArrayProofs3.perm1 ArrayProofs3.nz1) X).
Qed.
Print Assumptions C93_no_failure.

Lemma reserve_fails V (dflt : V) dbg chk triv n : (0 < n)%Z ->
  m_step dbg chk triv dflt false (VReserve n) (m_new V) = Ok (Z.to_nat n, new_array V BMalloc [0]).
Proof.
  intros N. cbn [m_step]. unfold m_of, m_reserve, m_setCapacity. cbn [fst snd m_new]. change (size (new_array V BMalloc [0])) with 0.
  rewrite chk_ok by lia. cbn [bind fst]. rewrite (proj2 (Nat.ltb_lt 0 (Z.to_nat n))) by lia.
  pose proof (@realloc_false dbg V triv 0 (new_array V BMalloc [0]) [] (Z.to_nat n) (proj1 (new_inv V triv))) as Q.
  cbn [length] in Q. rewrite Q by lia. reflexivity.
Qed.
(** reserve() does not report the failure: on an empty array it returns, capacity() is what was asked for, and there is no
    room for a single element. *)
Theorem C93_reserve_refuted : forall V (dflt : V) dbg chk triv n v ok,
  (0 < n)%Z ->
  (exists s, with_malloc dbg chk triv dflt [(VReserve n, false)] = Ok s /\ m_capacity s = Z.to_nat n /\ a_buf (snd s) = []) /\
  with_malloc dbg chk triv dflt [(VReserve n, false); (VEmplaceBack v, ok)] = if dbg then Abort else Fault FOob.
Proof.
  intros V dflt dbg chk triv n v ok N.
  pose proof (@reserve_fails V dflt dbg chk triv n N) as S.
  cbn [m_run]. rewrite S. cbn [bind]. split; [ eexists; repeat split | ].
  destruct (@step_null dbg chk V triv dflt ok (Z.to_nat n) (new_array V BMalloc [0]) (VEmplaceBack v) [v] (proj1 (new_inv V triv)) eq_refl)
    as [[E _]|[(pos & Y & _)|(c1 & a1 & E & _ & _ & Y & _)]]; [ right; cbn; split; [ lia | reflexivity ] | | discriminate | discriminate ].
  rewrite E. unfold bad. destruct dbg; reflexivity.
Qed.
Print Assumptions C93_reserve_refuted.

(** After such a reserve( n ) no call within the capacity allocates again: a smaller reserve changes nothing, and every call that puts
    an element into the array is the access through the null pointer, whatever std::malloc would answer. *)
Theorem C93_null_used : forall V (dflt : V) dbg chk triv n c ok,
  vector dflt c [] <> None -> 0 < need c [] <= Z.to_nat n ->
  with_malloc dbg chk triv dflt [(VReserve n, false); (c, ok)] =
    match c with
    | VReserve _ => with_malloc dbg chk triv dflt [(VReserve n, false)]
    | _ => if dbg then Abort else Fault FOob
    end.
Proof.
  intros V dflt dbg chk triv n c ok X N.
  assert (N0 : (0 < n)%Z) by lia. pose proof (@reserve_fails V dflt dbg chk triv n N0) as S.
  cbn [m_run]. rewrite S. cbn [bind]. destruct (vector dflt c []) as [l1|] eqn:Y; [ clear X | destruct (X eq_refl) ].
  assert (R : forall m, c = VReserve m -> m_step dbg chk triv dflt ok c (Z.to_nat n, new_array V BMalloc [0]) = Ok (Z.to_nat n, new_array V BMalloc [0])).
  { intros m ->. cbn [m_step need] in *. unfold m_of, m_reserve. cbn [fst snd]. change (size (new_array V BMalloc [0])) with 0.
    rewrite chk_ok by lia. cbn [bind fst]. rewrite (proj2 (Nat.ltb_ge (Z.to_nat n) (Z.to_nat m))) by lia. reflexivity. }
  destruct (@step_null dbg chk V triv dflt ok (Z.to_nat n) (new_array V BMalloc [0]) c l1 (proj1 (new_inv V triv)) Y)
    as [[E _]|[(pos & -> & _)|(c1 & a1 & E & _ & _ & Z & _)]]; [ right; split; [ lia | reflexivity ] | | simpl in N; lia | ].
  - destruct c; rewrite E; try (unfold bad; destruct dbg; reflexivity). rewrite (R n0 eq_refl) in E. unfold bad in E. destruct dbg; discriminate.
  - subst l1. destruct c; cbn [vector need length Nat.add] in *; try lia; try (rewrite (R n0 eq_refl); reflexivity); try discriminate.
    + destruct ((0 <=? pos)%Z && _)%bool; [ | discriminate ]. injection Y as Y. destruct (firstn (Z.to_nat pos) []); discriminate.
    + destruct ((0 <=? pos)%Z && _)%bool; [ | discriminate ]. injection Y as Y. apply app_eq_nil in Y. destruct Y as [_ Y]. apply app_eq_nil in Y. destruct Y as [-> _]. simpl in N. lia.
    + destruct (0 <=? n0)%Z; [ | discriminate ]. injection Y as Y. apply (f_equal (@length V)) in Y. unfold with_length in Y. rewrite app_length, repeat_length in Y. simpl in Y. lia.
    + destruct (0 <=? n0)%Z; [ | discriminate ]. injection Y as Y. apply (f_equal (@length V)) in Y. unfold with_length in Y. rewrite app_length, repeat_length in Y. simpl in Y. lia.
Qed.
Print Assumptions C93_null_used.

(** * Several dimensions *)
(** resize( n ) of an array of any shape: with a successful allocation it is the call of C87. *)
Theorem C93_dimension_no_failure : forall V dbg chk triv perm (a : array V) n v,
  (s <- m_resizeDefaultDimension dbg chk triv perm true (capacity a, a) n v ;; Ok (snd s)) =
  a_resizeDefaultDimension dbg chk BMalloc triv perm a n v.
Proof.
  intros V dbg chk triv perm a n v.
  assert (R : forall size m, m_reserve dbg chk triv true (capacity a, a_buf a) size m =
    (b <- b_reserve dbg chk BMalloc triv (a_buf a) size m ;; Ok (if capacity a <? m then m else capacity a, b))).
  { intros size m. unfold m_reserve, b_reserve, m_setCapacity, b_setCapacity, m_check, check, Array.capacity. cbn [fst].
    destruct (check_if chk _); auto. cbn [bind]. destruct (BufferManip.capacity (a_buf a) <? m); [ | reflexivity ]. apply realloc_true. }
  unfold m_resizeDefaultDimension, a_resizeDefaultDimension. destruct (error_if _); auto. cbn [bind fst snd]. unfold m_of. cbn [fst snd].
  destruct (_ || _)%bool.
  - unfold m_resize, b_resize. rewrite R.
    unfold m_check, check, Array.capacity. cbn [fst]. destruct (check_if chk _); auto. cbn [bind].
    destruct (b_reserve _ _ _ _ _ _ _); auto. cbn [bind snd fst]. destruct (d_resize _ _ _ _ _ _ _ _); reflexivity.
  - destruct (_ =? _); [ reflexivity | ]. destruct (_ <? _).
    + rewrite R. destruct (b_reserve _ _ _ _ _ _ _); auto. cbn [bind snd fst]. destruct (for_down _ _ _); reflexivity.
    + destruct (for_up _ _ _ _); auto. cbn [bind]. destruct (for_up _ _ _ _); reflexivity.
Qed.
Print Assumptions C93_dimension_no_failure.

(** For more than one dimension the assertions do not help: resize( n ) of the second dimension of an array of shape (1, 0) moves nothing, so that
    no assertion looks at the pointer, and constructs the new elements through the null pointer in a debug build too. *)
Theorem C93_debug_refuted : forall V (dflt : V) dbg chk triv n v, (0 < n)%Z ->
  exists a, run (a_nstep dbg chk BMalloc triv [0; 1] dflt) [NResize [1%Z; 0%Z]; @NSetIndex V 1%Z] (new_array V BMalloc [0; 1]) = Ok a /\
    a_dims a = [1; 0] /\ m_resizeDefaultDimension dbg chk triv [0; 1] false (capacity a, a) n v = Fault FOob.
Proof.
  intros V dflt dbg chk triv n v N. exists (mkArray [1; 0] [0; 1] 1 []).
  split; [ destruct dbg, chk, triv; reflexivity | ]. split; [ reflexivity | ].
  unfold m_resizeDefaultDimension. rewrite error_if_ok by (apply Z.ltb_ge; lia).
  cbn [bind snd fst a_dims a_rix a_strides a_buf upd length Nat.eqb orb nth].
  destruct (Z.to_nat n) as [|k] eqn:K; [ lia | ].
  assert (M : Indexing.multiplyAll [1; S k] = S k) by (cbn; lia). rewrite M.
  change (size (mkArray [1; 0] [0; 1] 1 (@nil (cell V)))) with 0. cbn [Nat.eqb Nat.ltb Nat.leb].
  assert (R : m_reserve dbg chk triv false (m_of (capacity (mkArray [1; 0] [0; 1] 1 (@nil (cell V))), mkArray [1; 0] [0; 1] 1 (@nil (cell V)))) 0 (S k) = Ok (S k, [])).
  { unfold m_reserve, m_setCapacity, m_check, m_of. cbn. destruct chk, dbg, triv; reflexivity. }
  rewrite R. cbn [bind snd fst]. rewrite !Nat.sub_0_r, Nat.mul_1_l, Nat.div_same by lia. cbn [for_down Nat.mul].
  rewrite ?Nat.mul_0_r. destruct dbg, chk; reflexivity.
Qed.
Print Assumptions C93_debug_refuted.

(** A failure without consequences (the array was empty and a later allocation succeeds), one that loses elements in a release
    build, the same in a debug build, and an allocation that is not made because there is room. *)
Example C93_case :
  let h := [(VReserve 3%Z, false); (VResizeDefault 4%Z 7, true); (VSet 2%Z 9, false); (VErase 0%Z, false); (VEmplaceBack 5, false)] in
  vectors 0 (map fst h) [] = Some [7; 9; 7; 5] /\
  with_malloc true true false 0 h = Ok (4, mkArray [4] [1] 0 [Obj 7; Obj 9; Obj 7; Obj 5]) /\
  with_malloc false true false 0 (h ++ [(VEmplaceBack 6, false)]) = Fault FOob /\
  with_malloc true true false 0 (h ++ [(VEmplaceBack 6, false)]) = Abort /\
  with_malloc false false true 0 [(VResize 2%Z, false)] = Fault FOob /\
  with_malloc false false true 0 [(VReserve 3%Z, false); (VResize 2%Z, true)] = Fault FOob.
Proof. repeat split; vm_compute; reflexivity. Qed.
