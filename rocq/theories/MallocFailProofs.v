(** What the calls of a one dimensional Array do when std::malloc may fail. *)
From Coq Require Import List Arith ZArith Lia Bool.
From Verif Require Import Base BaseProofs Mem MemProofs BufferManip Array ArraySpec Debug DebugProofs MallocFail.
From Verif Require ArrayManip Indexing ArrayManipProofs BufferManipProofs ArrayProofs ArrayProofs2 ArrayProofs3 ArrayProofs4.
Import ListNotations.
Set Implicit Arguments.

Section P.
Variables dbg chk : bool.
Variable V : Type.
Variable triv : bool.
Variable dflt : V.
Notation arr_ok := (ArrayProofs.arr_ok triv [0]).
Notation dstep := (a_vstep dbg chk BMalloc triv [0] dflt).
Notation step := (m_step dbg chk triv dflt).
Definition bad {A} : outcome A := if dbg then Abort else Fault FOob.

Lemma realloc_true k (b : buf V) size n :
  m_reallocate dbg triv true (k, b) size n = (b' <- b_reallocate dbg BMalloc triv b size n ;; Ok (n, b')).
Proof.
  unfold m_reallocate, b_reallocate. cbn [snd].
  destruct (d_uninitializedMove _ _ _ _ _ _ _ _) as [[x y]| |]; cbn [bind]; auto.
  destruct (d_destroy _ _ _ _ _ _); cbn [bind]; auto. destruct (release _ _); reflexivity.
Qed.
Lemma chk_ok k (b : buf V) n : n <= k -> m_check chk (k, b) n = Ok tt.
Proof. intros. unfold m_check. apply check_if_ok. apply Nat.ltb_ge. exact H. Qed.

(** growing with success, or no growth and a block of m_capacity slots: as in the model where malloc succeeds *)
Definition plain (ok : bool) (cap : nat) (b : buf V) (n : nat) : Prop :=
  (cap < n /\ ok = true /\ length b <= cap) \/ (n <= cap /\ cap = length b).
Lemma reserve_plain ok cap b size n : plain ok cap b n -> size <= cap -> size <= length b ->
  m_reserve dbg chk triv ok (cap, b) size n = (b' <- b_reserve dbg chk BMalloc triv b size n ;; Ok (Nat.max cap n, b')).
Proof.
  intros P L1 L2. unfold m_reserve, b_reserve, m_setCapacity, b_setCapacity, BufferManip.capacity.
  rewrite chk_ok by auto. rewrite BufferManipProofs.check_ok by auto. cbn [bind fst].
  destruct P as [(G & -> & G2)|(G & ->)].
  - rewrite (proj2 (Nat.ltb_lt cap n)) by auto. rewrite (proj2 (Nat.ltb_lt (length b) n)) by lia. rewrite realloc_true.
    rewrite (Nat.max_r cap n) by lia. reflexivity.
  - rewrite (proj2 (Nat.ltb_ge (length b) n)) by auto. cbn [bind]. rewrite Nat.max_l by lia. reflexivity.
Qed.
Lemma dynamic_plain ok cap b size n : plain ok cap b n -> size <= cap -> size <= length b ->
  m_dynamicReserve dbg chk triv ok (cap, b) size n =
  (b' <- b_dynamicReserve dbg chk BMalloc triv b size n ;; Ok (if cap <? n then 2 * n else cap, b')).
Proof.
  intros P L1 L2. unfold m_dynamicReserve, b_dynamicReserve, m_setCapacity, b_setCapacity, BufferManip.capacity.
  rewrite chk_ok by auto. rewrite BufferManipProofs.check_ok by auto. cbn [bind fst].
  destruct P as [(G & -> & G2)|(G & ->)].
  - rewrite (proj2 (Nat.ltb_lt cap n)) by auto. rewrite (proj2 (Nat.ltb_lt (length b) n)) by lia. rewrite realloc_true.
    reflexivity.
  - rewrite (proj2 (Nat.ltb_ge (length b) n)) by auto. reflexivity.
Qed.

Lemma size1 (a : array V) l : arr_ok a l -> exists n, a_dims a = [n] /\ a_rix a = 0.
Proof.
  intros (D & _ & R & _). destruct (a_dims a) as [|x [|? ?]]; try discriminate. exists x. split; auto. simpl in R. lia.
Qed.
Ltac run1 := cbn [bind fst snd]; repeat (match goal with |- context [bind ?m _] => lazymatch m with bind _ _ => fail | Ok _ => cbn [bind fst snd] | _ => destruct m; cbn [bind fst snd]; auto end end).
Lemma step_plain ok cap a l c l1 : arr_ok a l -> length l <= cap -> vector dflt c l = Some l1 ->
  plain ok cap (a_buf a) (need c l) ->
  need c l <> 0 \/ cap = length (a_buf a) ->
  step ok c (cap, a) = (a' <- dstep c a ;; Ok (capacity_after c l cap, a')).
Proof.
  intros A L X P N. pose proof (ArrayProofs.size_ok A) as SZ. pose proof (ArrayProofs4.arr_cap A) as L2.
  unfold Array.capacity, BufferManip.capacity in L2.
  destruct (size1 A) as (n & D & R).
  destruct c; cbn [m_step a_vstep need capacity_after vector] in *; unfold m_of; cbn [fst snd]; rewrite ?SZ.
  - unfold m_emplaceBack, a_emplace_back, b_emplaceBack. rewrite SZ, chk_ok, BufferManipProofs.check_ok by auto. cbn [bind].
    rewrite dynamic_plain by auto. run1.
  - unfold m_emplace, a_emplace, b_emplace, m_checkInsert, checkInsert. rewrite SZ, chk_ok, BufferManipProofs.check_ok by auto. cbn [bind].
    rewrite dynamic_plain by auto. run1.
  - unfold m_insert, a_insert, b_insert, m_checkInsert, checkInsert. rewrite SZ, chk_ok, BufferManipProofs.check_ok by auto. cbn [bind].
    rewrite dynamic_plain by auto. run1.
  - unfold m_popBack, a_pop_back, b_popBack. rewrite SZ, chk_ok, BufferManipProofs.check_ok by auto. cbn [bind]. run1.
  - unfold m_erase, a_erase, b_erase. rewrite SZ, chk_ok, BufferManipProofs.check_ok by auto. cbn [bind]. run1.
  - unfold m_resizeDefault, a_resizeDefaultDimension, m_resize, b_resize, m_of. cbn [fst snd length Nat.eqb orb].
    rewrite SZ, D, R. cbn [upd Indexing.multiplyAll fold_left fold_right]. rewrite ?Nat.mul_1_r, ?Nat.mul_1_l.
    rewrite chk_ok, BufferManipProofs.check_ok by auto. cbn [bind]. rewrite reserve_plain by auto. run1.
  - unfold m_resizeDefault, a_resizeDefaultDimension, m_resize, b_resize, m_of. cbn [fst snd length Nat.eqb orb].
    rewrite SZ, D, R. cbn [upd Indexing.multiplyAll fold_left fold_right]. rewrite ?Nat.mul_1_r, ?Nat.mul_1_l.
    rewrite chk_ok, BufferManipProofs.check_ok by auto. cbn [bind]. rewrite reserve_plain by auto. run1.
  - unfold a_reserve. rewrite SZ, reserve_plain by auto. run1.
  - unfold a_clear, m_resize, b_resize. rewrite SZ, chk_ok, BufferManipProofs.check_ok by auto. cbn [bind].
    rewrite reserve_plain by auto. run1. rewrite Nat.max_0_r. reflexivity.
  - reflexivity.
Qed.

(** a failed allocation *)
Lemma realloc_false cap (a : array V) l n : arr_ok a l -> length l < n ->
  m_reallocate dbg triv false (cap, a_buf a) (length l) n = match l with [] => Ok (n, []) | _ => bad end.
Proof.
  intros (_ & _ & _ & _ & H) L. unfold m_reallocate, d_uninitializedMove, d_destroy, assert_, nonnull. cbn [snd length Nat.eqb andb negb orb].
  rewrite Nat.min_r by lia. destruct l as [|v l].
  - cbn [length Nat.eqb orb negb]. rewrite ?orb_true_r. cbn [negb]. rewrite !check_if_ok by reflexivity. cbn [bind].
    unfold ArrayManip.uninitializedMove, ArrayManip.destroy. cbn [for_up bind].
    rewrite ?orb_true_r. cbn [negb]. rewrite !check_if_ok by reflexivity. cbn [bind].
    destruct H as [k M]. cbn [map app] in M.
    replace (if triv then Ok (a_buf a) else Ok (a_buf a)) with (Ok (a_buf a)) by (destruct triv; reflexivity).
    cbn [bind]. rewrite (@BufferManipProofs.release_ok V triv (a_buf a) k) by exact M. reflexivity.
  - cbn [length Nat.eqb orb negb]. unfold bad. destruct dbg; [ reflexivity | ]. cbn [check_if bind].
    pose proof (@BufferManipProofs.holds_rd V triv (a_buf a) (v :: l) 0 v H eq_refl) as E. unfold rd, aget in E.
    destruct (nth_error (a_buf a) 0) as [x|] eqn:Ex; [ | discriminate ]. cbn [bind] in E.
    unfold ArrayManip.uninitializedMove. cbn [for_up]. unfold take, aget. cbn [Nat.add]. rewrite Ex. cbn [bind].
    destruct x; try discriminate. destruct triv.
    + reflexivity.
    + unfold aset. destruct (a_buf a); [ discriminate | ]. reflexivity.
Qed.
Lemma null_ok (a : array V) : a_dims a = [0] -> a_rix a = 0 -> a_strides a = Indexing.calculateStrides [0] [0] -> a_buf a = [] -> arr_ok a [].
Proof.
  intros D R S B. unfold ArrayProofs.arr_ok. rewrite D, R, S, B. repeat split; auto. exists 0. constructor.
Qed.
Lemma dims0 (a : array V) : arr_ok a [] -> a_dims a = [0] /\ a_rix a = 0 /\ a_strides a = Indexing.calculateStrides [0] [0].
Proof.
  intros A. destruct (size1 A) as (n & D & R). destruct A as (_ & S & _ & P & _). rewrite D in S, P. simpl in P.
  assert (n = 0) as -> by lia. auto.
Qed.

(** the block is or becomes null, and the array has no elements *)
Definition nulls (ok : bool) (cap : nat) (b : buf V) (n : nat) : Prop := (cap < n /\ ok = false) \/ (n <= cap /\ b = []).
Lemma reserve_null ok cap a n : arr_ok a [] -> nulls ok cap (a_buf a) n ->
  exists k, m_reserve dbg chk triv ok (cap, a_buf a) 0 n = Ok (k, []) /\ (n <= cap -> k = cap).
Proof.
  intros A N. unfold m_reserve, m_setCapacity. rewrite chk_ok by lia. cbn [bind fst]. destruct N as [(G & ->)|(G & E)].
  - rewrite (proj2 (Nat.ltb_lt cap n)) by auto. exists n. split; [ | lia ]. apply (@realloc_false cap a [] n A). simpl. lia.
  - rewrite (proj2 (Nat.ltb_ge cap n)) by auto. exists cap. rewrite E. auto.
Qed.
Lemma dynamic_null ok cap a n : arr_ok a [] -> nulls ok cap (a_buf a) n ->
  exists k, m_dynamicReserve dbg chk triv ok (cap, a_buf a) 0 n = Ok (k, []) /\ (n <= cap -> k = cap).
Proof.
  intros A N. unfold m_dynamicReserve, m_setCapacity. rewrite chk_ok by lia. cbn [bind fst]. destruct N as [(G & ->)|(G & E)].
  - rewrite (proj2 (Nat.ltb_lt cap n)) by auto. exists (2 * n). split; [ | lia ]. apply (@realloc_false cap a [] (2 * n) A). simpl. lia.
  - rewrite (proj2 (Nat.ltb_ge cap n)) by auto. exists cap. rewrite E. auto.
Qed.
Lemma resize_null n v : d_resize dbg BMalloc triv (@nil (cell V)) 0 0 n v = match n with 0 => Ok [] | _ => bad end.
Proof.
  unfold bad, d_resize, nonnull, assert_, ArrayManip.destroy. destruct n, dbg, triv; reflexivity.
Qed.
Lemma back_null v : d_emplaceBack dbg BMalloc triv (@nil (cell V)) 0 0 v = bad.
Proof. unfold bad. destruct dbg; reflexivity. Qed.
Lemma emplace_null v : d_emplace dbg chk BMalloc triv (@nil (cell V)) 0 0 0 v = bad.
Proof. unfold bad. destruct dbg, chk, triv; reflexivity. Qed.
Lemma insert_null vs : d_insert dbg chk BMalloc triv (@nil (cell V)) 0 0 0 vs = if dbg then Abort else match vs with [] => Ok [] | _ => Fault FOob end.
Proof. destruct dbg, chk, triv, vs; reflexivity. Qed.

Lemma step_null ok cap a c l1 : arr_ok a [] -> vector dflt c [] = Some l1 -> nulls ok cap (a_buf a) (need c []) ->
  (step ok c (cap, a) = bad /\ 0 < need c []) \/ (exists pos, c = VInsert pos [] /\ dbg = true /\ step ok c (cap, a) = Abort) \/
  (exists cap1 a1, step ok c (cap, a) = Ok (cap1, a1) /\ arr_ok a1 l1 /\ a_buf a1 = [] /\ l1 = [] /\ (need c [] <= cap -> cap1 = cap)).
Proof.
  intros A X N. pose proof (ArrayProofs.size_ok A) as SZ. simpl in SZ. destruct (dims0 A) as (D & R & S).
  destruct c; cbn [m_step need vector length Nat.add] in *; unfold m_of; cbn [fst snd]; rewrite ?SZ; try discriminate.
  - left. split; [ | lia ]. unfold m_emplaceBack. rewrite chk_ok by lia. cbn [bind Nat.add]. destruct (dynamic_null A N) as (k & -> & K). cbn [bind snd].
    rewrite back_null. unfold bad. destruct dbg; reflexivity.
  - destruct ((0 <=? pos)%Z && (pos <=? Z.of_nat 0)%Z)%bool eqn:B; [ | discriminate ].
    assert (pos = 0%Z) as -> by (apply andb_true_iff in B; destruct B as [B1 B2]; apply Z.leb_le in B1, B2; simpl in B2; lia).
    left. split; [ | lia ]. unfold m_emplace, m_checkInsert. rewrite chk_ok by lia. cbn [bind Nat.add]. rewrite !check_if_ok by reflexivity. cbn [bind].
    destruct (dynamic_null A N) as (k & -> & K). cbn [bind snd to_ix Z.ltb Z.compare Z.to_nat].
    rewrite emplace_null. unfold bad. destruct dbg; reflexivity.
  - destruct ((0 <=? pos)%Z && (pos <=? Z.of_nat 0)%Z)%bool eqn:B; [ | discriminate ].
    assert (pos = 0%Z) as -> by (apply andb_true_iff in B; destruct B as [B1 B2]; apply Z.leb_le in B1, B2; simpl in B2; lia). injection X as <-.
    unfold m_insert, m_checkInsert. rewrite chk_ok by lia. cbn [bind Nat.add]. rewrite !check_if_ok by reflexivity. cbn [bind].
    destruct (dynamic_null A N) as (k & -> & K). cbn [bind snd fst to_ix Z.ltb Z.compare Z.to_nat].
    rewrite insert_null. unfold bad. destruct dbg eqn:Edbg; destruct vs as [|x vs].
    + right; left. exists 0%Z. auto.
    + left. split; [ reflexivity | simpl; lia ].
    + right; right. cbn [bind]. do 2 eexists. split; [ reflexivity | ].
      cbn [firstn skipn app]. split; [ | split; [ reflexivity | split; [ reflexivity | exact K ] ] ]. apply null_ok; cbn; rewrite ?D; auto.
    + left. split; [ reflexivity | simpl; lia ].
  - destruct ((0 <=? pos)%Z && (pos <? Z.of_nat 0)%Z)%bool eqn:B; [ | discriminate ]. apply andb_true_iff in B. destruct B as [B1 B2]. apply Z.leb_le in B1. apply Z.ltb_lt in B2. simpl in B2. lia.
  - destruct (0 <=? n)%Z eqn:B; [ | discriminate ]. injection X as <-. unfold m_resizeDefault, m_resize, m_of. cbn [fst snd]. apply Z.leb_le in B; rewrite error_if_ok by (apply Z.ltb_ge; lia).
    cbn [bind]. rewrite SZ, D, R. cbn [upd Indexing.multiplyAll fold_left fold_right]. rewrite ?Nat.mul_1_r, ?Nat.mul_1_l.
    rewrite chk_ok by lia. cbn [bind]. destruct (reserve_null A N) as (k & -> & K). cbn [bind snd fst]. rewrite resize_null.
    destruct (Z.to_nat n) eqn:Zn.
    + right; right. cbn [bind]. do 2 eexists. split; [ reflexivity | ]. split; [ apply null_ok; auto | auto ].
    + left. split; [ unfold bad; destruct dbg; reflexivity | lia ].
  - destruct (0 <=? n)%Z eqn:B; [ | discriminate ]. injection X as <-. unfold m_resizeDefault, m_resize, m_of. cbn [fst snd]. apply Z.leb_le in B; rewrite error_if_ok by (apply Z.ltb_ge; lia).
    cbn [bind]. rewrite SZ, D, R. cbn [upd Indexing.multiplyAll fold_left fold_right]. rewrite ?Nat.mul_1_r, ?Nat.mul_1_l.
    rewrite chk_ok by lia. cbn [bind]. destruct (reserve_null A N) as (k & -> & K). cbn [bind snd fst]. rewrite resize_null.
    destruct (Z.to_nat n) eqn:Zn.
    + right; right. cbn [bind]. do 2 eexists. split; [ reflexivity | ]. split; [ apply null_ok; auto | auto ].
    + left. split; [ unfold bad; destruct dbg; reflexivity | lia ].
  - injection X as <-. destruct (reserve_null A N) as (k & -> & K). right; right. cbn [bind snd fst]. do 2 eexists. split; [ reflexivity | ].
    split; [ apply null_ok; auto | auto ].
  - injection X as <-. unfold m_resize. rewrite chk_ok by lia. cbn [bind]. destruct (reserve_null A N) as (k & -> & K). cbn [bind snd fst].
    rewrite resize_null. right; right. cbn [bind snd fst]. do 2 eexists. split; [ reflexivity | ].
    split; [ apply null_ok; cbn; rewrite ?D, ?R; auto | auto ].
  - destruct ((0 <=? i)%Z && (i <? Z.of_nat 0)%Z)%bool eqn:B; [ | discriminate ]. apply andb_true_iff in B. destruct B as [B1 B2]. apply Z.leb_le in B1. apply Z.ltb_lt in B2. simpl in B2. lia.
Qed.

(** elements are at stake and the allocation the call needs fails *)
Lemma step_lost cap a l c l1 : arr_ok a l -> l <> [] -> length l <= cap -> vector dflt c l = Some l1 -> cap < need c l ->
  step false c (cap, a) = bad.
Proof.
  intros A NE L X G. pose proof (ArrayProofs.size_ok A) as SZ. destruct (size1 A) as (m & D & R).
  assert (RF : forall n, length l < n -> m_reallocate dbg triv false (cap, a_buf a) (length l) n = bad).
  { intros n Ln. rewrite (@realloc_false cap a l n A Ln). destruct l; [ destruct (NE eq_refl) | reflexivity ]. }
  assert (RS : forall n, cap < n -> m_reserve dbg chk triv false (cap, a_buf a) (length l) n = bad).
  { intros n Ln. unfold m_reserve, m_setCapacity. rewrite chk_ok by auto. cbn [bind fst]. rewrite (proj2 (Nat.ltb_lt cap n)) by auto. apply RF. lia. }
  assert (DR : forall n, cap < n -> m_dynamicReserve dbg chk triv false (cap, a_buf a) (length l) n = bad).
  { intros n Ln. unfold m_dynamicReserve, m_setCapacity. rewrite chk_ok by auto. cbn [bind fst]. rewrite (proj2 (Nat.ltb_lt cap n)) by auto. apply RF. lia. }
  destruct c; cbn [m_step need vector] in *; unfold m_of; cbn [fst snd]; rewrite ?SZ; try lia.
  - unfold m_emplaceBack. rewrite chk_ok by auto. cbn [bind]. rewrite DR by auto. unfold bad. destruct dbg; reflexivity.
  - destruct ((0 <=? pos)%Z && (pos <=? Z.of_nat (length l))%Z)%bool eqn:B; [ | discriminate ]. apply andb_true_iff in B. destruct B as [B1 B2]. apply Z.leb_le in B1, B2.
    unfold m_emplace, m_checkInsert. rewrite chk_ok by auto. cbn [bind]. rewrite !check_if_ok by (apply Z.ltb_ge; lia). cbn [bind]. rewrite DR by auto. unfold bad. destruct dbg; reflexivity.
  - destruct ((0 <=? pos)%Z && (pos <=? Z.of_nat (length l))%Z)%bool eqn:B; [ | discriminate ]. apply andb_true_iff in B. destruct B as [B1 B2]. apply Z.leb_le in B1, B2.
    unfold m_insert, m_checkInsert. rewrite chk_ok by auto. cbn [bind]. rewrite !check_if_ok by (apply Z.ltb_ge; lia). cbn [bind]. rewrite DR by auto. unfold bad. destruct dbg; reflexivity.
  - destruct (0 <=? n)%Z eqn:B; [ | discriminate ]. unfold m_resizeDefault, m_resize, m_of. cbn [fst snd]. apply Z.leb_le in B; rewrite error_if_ok by (apply Z.ltb_ge; lia).
    cbn [bind]. rewrite SZ, D, R. cbn [upd Indexing.multiplyAll fold_left fold_right]. rewrite ?Nat.mul_1_r, ?Nat.mul_1_l.
    rewrite chk_ok by auto. cbn [bind]. rewrite RS by auto. unfold bad. destruct dbg; reflexivity.
  - destruct (0 <=? n)%Z eqn:B; [ | discriminate ]. unfold m_resizeDefault, m_resize, m_of. cbn [fst snd]. apply Z.leb_le in B; rewrite error_if_ok by (apply Z.ltb_ge; lia).
    cbn [bind]. rewrite SZ, D, R. cbn [upd Indexing.multiplyAll fold_left fold_right]. rewrite ?Nat.mul_1_r, ?Nat.mul_1_l.
    rewrite chk_ok by auto. cbn [bind]. rewrite RS by auto. unfold bad. destruct dbg; reflexivity.
  - rewrite RS by auto. unfold bad. destruct dbg; reflexivity.
Qed.

(** [w]: some allocation has failed *)
Definition inv (w : Prop) (s : marray V) (l : list V) : Prop :=
  arr_ok (snd s) l /\ (fst s = length (a_buf (snd s)) \/ (w /\ a_buf (snd s) = [] /\ l = [])).
Lemma inv_cap w s l : inv w s l -> length l <= fst s.
Proof.
  intros [A [E|(_ & _ & ->)]]; [ | simpl; lia ]. rewrite E. apply (ArrayProofs4.arr_cap A).
Qed.
Lemma step_inv (w : Prop) ok c s l l1 : inv w s l -> vector dflt c l = Some l1 ->
  let w1 := w \/ ok = false in
  (exists s1, step ok c s = Ok s1 /\ inv w1 s1 l1) \/ (step ok c s = bad /\ w1) \/
  (exists pos, c = VInsert pos [] /\ dbg = true /\ step ok c s = Abort).
Proof.
  intros I X w1. pose proof (inv_cap I) as L. destruct s as [cap a]. destruct I as [A N]. cbn [fst snd] in *.
  assert (PL : plain ok cap (a_buf a) (need c l) -> need c l <> 0 \/ a_buf a <> [] \/ (forall pos, c <> VInsert pos []) ->
    need c l <> 0 \/ cap = length (a_buf a) -> exists s1, step ok c (cap, a) = Ok s1 /\ inv w1 s1 l1).
  { intros P NI N0. rewrite (@step_plain ok cap a l c l1 A L X P N0).
    destruct (@ArrayProofs3.vstep_ok V chk triv BMalloc dflt c a l l1 A X (or_introl eq_refl)) as (a1 & E & A1 & C).
    assert (E' : dstep c a = Ok a1).
    { destruct c as [ |? ?|pos [|x vs]| | | | | | |] eqn:Ec; try (refine (@i_vstep dbg chk BMalloc V triv [0] dflt _ a _ a1 E); intros ? ?; discriminate).
      refine (@i_vstep dbg chk BMalloc V triv [0] dflt _ a _ a1 E). intros ? _. apply nn.
      cbn [need length] in *. destruct NI as [NI|[NI|NI]].
      - destruct l; [ simpl in NI; lia | ]. pose proof (ArrayProofs4.arr_cap A) as Q. unfold Array.capacity, BufferManip.capacity in Q. simpl in Q. lia.
      - destruct (a_buf a); [ destruct (NI eq_refl) | simpl; lia ].
      - destruct (NI pos eq_refl). }
    rewrite E'. cbn [bind]. eexists. split; [ reflexivity | ]. split; [ exact A1 | ]. left. cbn [fst snd]. rewrite C.
    destruct P as [(G & _ & G2)|(G & ->)]; [ | reflexivity ].
    destruct c; cbn [capacity_after need] in *; try lia;
      repeat match goal with |- context [?x <? ?y] => destruct (Nat.ltb_spec x y) end; lia. }
  destruct (le_lt_dec (need c l) cap) as [G|G].
  - destruct N as [E|(W & B & ->)].
    + destruct (a_buf a) as [|x b] eqn:B.
      * assert (l = []) as ->. { destruct l; auto. simpl in *. lia. }
        simpl in E. subst cap. rewrite <- B in *.
        destruct (@step_null ok 0 a c l1 A X) as [[_ Y]|[Y|(c1 & a1 & Y & A1 & B1 & -> & K)]]; [ right; auto | lia | auto | ].
        left. exists (c1, a1). split; auto. split; auto. left. cbn [fst snd]. rewrite B1. simpl. auto.
      * left. apply PL; auto; [ right; auto | right; left; discriminate ].
    + destruct (@step_null ok cap a c l1 A X) as [[Y _]|[Y|(c1 & a1 & Y & A1 & B1 & -> & K)]]; [ right; auto | | | ].
      * right; left. split; [ exact Y | left; exact W ].
      * right; right. exact Y.
      * left. exists (c1, a1). split; auto. split; auto. right. split; [ left; exact W | auto ].
  - destruct ok.
    + left. apply PL; [ left; split; [ lia | split; [ reflexivity | ] ] | left; lia | left; lia ].
      destruct N as [->|(_ & B & _)]; [ lia | rewrite B; simpl; lia ].
    + destruct l as [|v l].
      * destruct (@step_null false cap a c l1 A X) as [[Y _]|[Y|(c1 & a1 & Y & A1 & B1 & -> & K)]]; [ left; auto | | | ].
        -- right; left. split; [ exact Y | right; reflexivity ].
        -- right; right. exact Y.
        -- left. exists (c1, a1). split; auto. split; auto. right. split; [ right; reflexivity | auto ].
      * right; left. split; [ | right; reflexivity ]. apply (@step_lost cap a (v :: l) c l1); auto. discriminate.
Qed.
End P.
