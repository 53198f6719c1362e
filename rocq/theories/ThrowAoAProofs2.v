(** The members of ArrayOfArrays which build elements, when one of the elements throws. *)
From Coq Require Import List Arith ZArith Lia Bool.
From Verif Require Import Base BaseProofs Mem MemProofs ArrayManipProofs BufferManip BufferManipProofs AoA AoASpec AoALayout AoAProofs AoAProofs2 AoAProofs3.
From Verif Require Import Throw ThrowProofs ThrowAoA ThrowAoASpec ThrowAoAProofs.
From Verif Require ArrayManip AoAProofs4 PropAoA.
Import ListNotations.
Set Implicit Arguments.
Unset Strict Implicit.

Section Xokb.
Variables A B X : Type.
Lemma xokb_lift t n (x : X) (m : outcome A) (P : A -> Prop) (k : nat -> A -> xout B X) Q T :
  okb t m P -> (forall a, m = Ok a -> P a -> xokb t (k n a) Q T) -> xokb t (xbind (xlift n x m) k) Q T.
Proof. intros [(a & -> & Pa)|[E ->]] H; simpl; [apply H; auto|right; auto]. Qed.
Lemma xokb_spec t (x : xout A X) Q T : xspec x Q T -> xokb t x Q T.
Proof. left; auto. Qed.
Lemma xokb_mono t (x : xout A X) (Q Q' : nat -> A -> Prop) (T T' : why -> X -> Prop) :
  xokb t x Q T -> (forall n a, Q n a -> Q' n a) -> (forall w s, T w s -> T' w s) -> xokb t x Q' T'.
Proof. intros [H|H] HQ HT; [left; eapply xspec_mono; eauto|right; auto]. Qed.
End Xokb.

Section XStep.
Variable V : Type.
Variable chk : bool.
Notation aoa := (aoa V unit).
Notation row := (list V * nat)%type.
Notation rows := (list row).
Notation idv := (fun v : V => v).
Notation fu := (fun _ : V => tt).
Notation aok := (@aok V V unit idv fu false true false).
Notation iok := (@iok V V unit).
Notation mem := (@mem V false).
Notation LVs := (map (@LV V)).
Notation damaged := (@damaged V).
Implicit Types a t : aoa.
Implicit Types A B : rows.

Lemma damaged_aok t A r k B : damaged t A r k B (LVs r ++ repeat LN k) -> aok t (A ++ (r, k) :: B).
Proof.
  intros (I & _ & q & M). split; [exact I|]. split; [|discriminate]. exists q. eapply mem_cast; [exact M|].
  rewrite flat_app. simpl. rewrite cells_id. lapp. auto.
Qed.

Lemma append_loop_copy vs : forall (b : buf V) p s i,
  ArrayManip.append_loop false b p s i vs = (b' <- ArrayManip.uninitializedCopy false vs b (p + s + i) ;; Ok (b', i + length vs)).
Proof.
  induction vs as [|v vs IH]; intros b p s i; cbn [ArrayManip.append_loop ArrayManip.uninitializedCopy bind length].
  - rewrite Nat.add_0_r. reflexivity.
  - destruct (construct false b (p + s + i) v) as [b1| |]; cbn [bind]; auto. rewrite IH.
    replace (p + s + (i + 1)) with (p + s + i + 1) by lia.
    destruct (ArrayManip.uninitializedCopy false vs b1 (p + s + i + 1)); cbn [bind]; auto. do 2 f_equal. lia.
Qed.

(** The size is stored last. *)
Lemma put_last n a b i s (a' : aoa) : put_size (set_vals b a) i s = Ok a' -> x_put_size n a b i s = XOk n a'.
Proof. intros E. unfold x_put_size. rewrite E. reflexivity. Qed.

Lemma x_emplaceBack_v a A r k B v n : aok a (A ++ (r, S k) :: B) ->
  xspec (x_v_emplaceBack chk false n a (length A) v)
    (fun n' a' => n = n' + 1 /\ v_emplaceBack chk false a (length A) v = Ok a')
    (fun w t => w = Element /\ n < 1 /\ aok t (A ++ (r, S k) :: B)).
Proof.
  intros H. pose proof H as [I E]. destruct (aok_row H) as [q M]. unfold x_v_emplaceBack.
  destruct (v_emplaceBack_ok chk v H) as (a2 & E2 & _). rewrite E2. unfold v_emplaceBack in E2.
  rewrite (row_check chk I) in E2 |- *. cbn [bind] in *. rewrite (row_cap chk I) in E2 |- * by lia. cbn [bind] in *.
  rewrite (row_off I) in E2 |- *. cbn [bind xlift xbind] in *. rewrite (row_size chk I) in E2 |- *. cbn [bind xlift xbind] in *.
  eapply xspec_bind.
  - apply xspec_left. eapply xspec_mono.
    + eapply (@x_construct_spec V (vals a) (flat idv A ++ LVs r) LN (repeat LN k ++ flat idv B ++ repeat LN q)
        (length (flat idv A) + length r) n v).
      * eapply mem_cast; [exact M|]. lapp. auto.
      * len.
      * exact Logic.I.
    + intros n' b' X. exact X.
    + intros w t (-> & -> & ->). split; auto.
  - intros n' b' (-> & Eb & _). unfold ArrayManip.emplaceBack in E2. rewrite Eb in E2. cbn [bind] in E2.
    rewrite (put_last n' E2). cbn [xspec]. auto.
Qed.

Lemma x_append_v a A r k B vs n : aok a (A ++ (r, k) :: B) -> length vs <= k ->
  xspec (x_v_appendToArray chk false n a (length A) vs)
    (fun n' a' => n = n' + length vs /\ v_appendToArray chk false a (length A) vs = Ok a')
    (fun w t => w = Element /\ n < length vs /\ damaged t A r k B (LVs (r ++ firstn n vs) ++ repeat LN (k - n))).
Proof.
  intros H C. pose proof H as [I E]. destruct (aok_row H) as [q M]. unfold x_v_appendToArray.
  destruct (v_append_ok chk H C) as (a2 & E2 & _). rewrite E2. unfold v_appendToArray in E2.
  rewrite (row_check chk I) in E2 |- *. cbn [bind] in *.
  rewrite (row_off I) in E2 |- *. cbn [bind xlift xbind] in *. rewrite (row_size chk I) in E2 |- *. cbn [bind xlift xbind] in *.
  unfold ArrayManip.append in E2. rewrite append_loop_copy, Nat.add_0_r in E2.
  eapply xspec_bind.
  - apply xspec_left. eapply xspec_mono.
    + apply (@x_copy_spec V vs (vals a) (flat idv A ++ LVs r) (repeat LN (k - length vs) ++ flat idv B ++ repeat LN q) n
        (length (flat idv A) + length r)).
      * eapply mem_cast; [exact M|]. lapp. do 2 f_equal. rewrite (app_assoc (repeat LN (length vs))), <- repeat_app_add. do 2 f_equal. lia.
      * len.
    + intros n' b' X. exact X.
    + intros w t (-> & L & Mt). split; auto. split; auto.
      apply (@damaged_vals V a A r k B (LVs r ++ repeat LN k) t q (aok_damaged H)); [len|].
      eapply mem_cast; [exact Mt|]. rewrite map_app. lapp. do 3 f_equal. rewrite (app_assoc (repeat LN (length vs - n))), <- repeat_app_add. do 2 f_equal. lia.
  - intros n' b' (-> & Eb). rewrite Eb in E2. cbn [bind plus] in E2.
    assert (I' : iok (set_vals b' a) (A ++ (r, k) :: B)) by exact I.
    rewrite (row_cap chk I') in E2 |- * by lia. cbn [bind xlift xbind] in *.
    rewrite (put_last n' E2). cbn [xspec]. auto.
Qed.

Lemma x_emplace_v a A xs ys k B v n : aok a (A ++ (xs ++ ys, S k) :: B) ->
  xspec (x_v_emplace chk false n a (length A) (length xs) v)
    (fun n' a' => n = n' + 1 /\ v_emplace chk false a (length A) (length xs) v = Ok a')
    (fun w t => w = Element /\ n < 1 /\ damaged t A (xs ++ ys) (S k) B (LVs xs ++ LN :: LVs ys ++ repeat LN k)).
Proof.
  intros H. pose proof H as [I E]. destruct (aok_row H) as [q M]. unfold x_v_emplace.
  destruct (v_emplace_ok chk v H) as (a2 & E2 & _). rewrite E2. unfold v_emplace in E2.
  rewrite (row_insert2 chk I) in E2 |- * by len. cbn [bind] in *. rewrite (row_cap chk I) in E2 |- * by lia. cbn [bind] in *.
  rewrite (row_off I) in E2 |- *. cbn [bind xlift xbind] in *. rewrite (row_size chk I) in E2 |- *. cbn [bind xlift xbind] in *.
  unfold x_am_emplace. unfold ArrayManip.emplace in E2.
  destruct (@ArrayManipProofs.shiftUp_ok V chk false (vals a) (flat idv A) xs ys 1 (repeat LN k ++ flat idv B ++ repeat LN q)
    (length (flat idv A)) (length (xs ++ ys)) (length xs)) as (b1 & E1 & M1).
  { eapply mem_cast; [exact M|]. rewrite map_app. lapp. auto. }
  { reflexivity. } { reflexivity. } { len. }
  unfold ArrayManip.check_insert_bounds in *. rewrite check_if_ok in E2 |- * by (apply Nat.ltb_ge; len). cbn [bind xlift xbind] in *.
  rewrite E1 in E2 |- *. cbn [bind xlift xbind] in *.
  eapply xspec_bind.
  - apply xspec_left. eapply xspec_mono.
    + eapply (@x_construct_spec V b1 (flat idv A ++ LVs xs) LN (LVs ys ++ repeat LN k ++ flat idv B ++ repeat LN q)
        (length (flat idv A) + length xs) n v).
      * eapply mem_cast; [exact M1|]. lapp. auto.
      * len.
      * exact Logic.I.
    + intros n' b' X. exact X.
    + intros w t (-> & -> & ->). split; auto. split; auto.
      apply (@damaged_vals V a A (xs ++ ys) (S k) B _ b1 q (aok_damaged H)); [len|].
      eapply mem_cast; [exact M1|]. lapp. auto.
  - intros n' b' (-> & Eb & _). rewrite Eb in E2. cbn [bind] in E2. rewrite (put_last n' E2). cbn [xspec]. auto.
Qed.

Lemma x_insert_v a A xs ys k B ws n : aok a (A ++ (xs ++ ys, k) :: B) -> length ws <= k ->
  xspec (x_v_insertIntoArray chk false n a (length A) (length xs) ws)
    (fun n' a' => n = n' + length ws /\ v_insertIntoArray chk false a (length A) (length xs) ws = Ok a')
    (fun w t => w = Element /\ n < length ws /\
       damaged t A (xs ++ ys) k B (LVs (xs ++ firstn n ws) ++ repeat LN (length ws - n) ++ LVs ys ++ repeat LN (k - length ws))).
Proof.
  intros H C. pose proof H as [I E]. destruct (aok_row H) as [q M]. unfold x_v_insertIntoArray.
  destruct (v_insert_ok chk H C) as (a2 & E2 & _). rewrite E2. unfold v_insertIntoArray in E2.
  rewrite (row_insert2 chk I) in E2 |- * by len. cbn [bind] in *. rewrite (row_cap chk I) in E2 |- * by lia. cbn [bind] in *.
  rewrite (row_off I) in E2 |- *. cbn [bind xlift xbind] in *. rewrite (row_size chk I) in E2 |- *. cbn [bind xlift xbind] in *.
  unfold x_am_insert. unfold ArrayManip.insert in E2.
  destruct (@ArrayManipProofs.shiftUp_ok V chk false (vals a) (flat idv A) xs ys (length ws) (repeat LN (k - length ws) ++ flat idv B ++ repeat LN q)
    (length (flat idv A)) (length (xs ++ ys)) (length xs)) as (b1 & E1 & M1).
  { eapply mem_cast; [exact M|]. rewrite map_app. lapp. do 3 f_equal. rewrite (app_assoc (repeat LN (length ws))), <- repeat_app_add. do 2 f_equal. lia. }
  { reflexivity. } { reflexivity. } { len. }
  unfold ArrayManip.check_insert_bounds in *. rewrite check_if_ok in E2 |- * by (apply Nat.ltb_ge; len). cbn [bind xlift xbind] in *.
  rewrite E1 in E2 |- *. cbn [bind xlift xbind] in *.
  eapply xspec_bind.
  - apply xspec_left. eapply xspec_mono.
    + apply (@x_copy_spec V ws b1 (flat idv A ++ LVs xs) (LVs ys ++ repeat LN (k - length ws) ++ flat idv B ++ repeat LN q) n
        (length (flat idv A) + length xs)).
      * eapply mem_cast; [exact M1|]. lapp. auto.
      * len.
    + intros n' b' X. exact X.
    + intros w t (-> & L & Mt). split; auto. split; auto.
      apply (@damaged_vals V a A (xs ++ ys) k B _ t q (aok_damaged H)); [len|].
      eapply mem_cast; [exact Mt|]. rewrite map_app. lapp. auto.
  - intros n' b' (-> & Eb). rewrite Eb in E2. cbn [bind] in E2. rewrite (put_last n' E2). cbn [xspec]. auto.
Qed.

Lemma x_set_v a A xs y ys k B v n : aok a (A ++ (xs ++ y :: ys, k) :: B) ->
  xspec (x_aoa_set chk false n a (length A) (length xs) v)
    (fun n' a' => n = n' + 1 /\ aoa_set chk false a (length A) (length xs) v = Ok a')
    (fun w t => w = Element /\ n < 1 /\ aok t (A ++ (xs ++ y :: ys, k) :: B)).
Proof.
  intros H. pose proof H as [I E]. unfold x_aoa_set. destruct (set_ok chk v H) as (a2 & E2 & _). rewrite E2. unfold aoa_set in E2.
  unfold slot in *. rewrite (row_check2 chk I) in E2 |- * by len. cbn [bind] in *. rewrite (row_off I) in E2 |- *. cbn [bind xlift xbind] in *.
  destruct (assign false (vals a) (length (flat idv A) + length xs) v) as [b| |] eqn:Eb; cbn [bind] in E2; try discriminate.
  unfold x_assign. destruct n as [|n]; [cbn; split; auto|]. rewrite Eb. cbn. injection E2 as <-. split; auto. lia.
Qed.

(** ** With growth *)
Lemma x_grow_ok a A r k B inc n (C : nat -> aoa -> xout aoa aoa) (Q : nat -> aoa -> Prop) (T : why -> aoa -> Prop) :
  aok a (A ++ (r, k) :: B) ->
  (forall a1, dynamicallyGrowArray chk false true false BMalloc a (length A) inc = Ok a1 ->
     aok a1 (A ++ (r, grown (length r) (length r + k) inc - length r) :: B) -> xokb (nogap (A ++ (r, k) :: B)) (C n a1) Q T) ->
  xokb (nogap (A ++ (r, k) :: B)) (xbind (x_grow chk false n a (length A) inc) C) Q T.
Proof.
  intros H K. unfold x_grow. pose proof (@grow_ok V unit chk false true fu a A r k B inc H) as G. cbn [orb AoAProofs.allt andb] in G.
  eapply xokb_lift; [exact G|]. intros a1 E1 H1. apply K; auto.
Qed.

Lemma x_emplaceBack_ok a A r k B v n : aok a (A ++ (r, k) :: B) ->
  xokb (nogap (A ++ (r, k) :: B)) (x_aoa_emplaceBack chk false n a (length A) v)
    (fun n' a' => n = n' + 1 /\ aoa_emplaceBack chk false true false BMalloc a (length A) v = Ok a')
    (fun w t => w = Element /\ n < 1 /\ aok t (A ++ (r, grown (length r) (length r + k) 1 - length r) :: B)).
Proof.
  intros H. unfold x_aoa_emplaceBack. apply (x_grow_ok H). intros a1 E1 H1. left. unfold aoa_emplaceBack. rewrite E1. cbn [bind].
  pose proof (grown_ge (length r) k 1) as G.
  destruct (grown (length r) (length r + k) 1 - length r) as [|g]; [lia|]. apply x_emplaceBack_v. exact H1.
Qed.
Lemma x_append_ok a A r k B vs n : aok a (A ++ (r, k) :: B) ->
  xokb (nogap (A ++ (r, k) :: B)) (x_aoa_appendToArray chk false n a (length A) vs)
    (fun n' a' => n = n' + length vs /\ aoa_appendToArray chk false true false BMalloc a (length A) vs = Ok a')
    (fun w t => w = Element /\ n < length vs /\
       exists k', k' = grown (length r) (length r + k) (length vs) - length r /\ length vs <= k' /\
       damaged t A r k' B (LVs (r ++ firstn n vs) ++ repeat LN (k' - n))).
Proof.
  intros H. unfold x_aoa_appendToArray. apply (x_grow_ok H). intros a1 E1 H1. left. unfold aoa_appendToArray. rewrite E1. cbn [bind].
  pose proof (grown_ge (length r) k (length vs)) as G. eapply xspec_mono; [apply (x_append_v n H1 G)|auto|].
  intros w t (-> & L & D). split; auto. split; auto. eexists. split; [reflexivity|]. auto.
Qed.
Lemma x_emplace_ok a A xs ys k B v n : aok a (A ++ (xs ++ ys, k) :: B) ->
  xokb (nogap (A ++ (xs ++ ys, k) :: B)) (x_aoa_emplace chk false n a (length A) (length xs) v)
    (fun n' a' => n = n' + 1 /\ aoa_emplace chk false true false BMalloc a (length A) (length xs) v = Ok a')
    (fun w t => w = Element /\ n < 1 /\ exists k', S k' = grown (length (xs ++ ys)) (length (xs ++ ys) + k) 1 - length (xs ++ ys) /\
       damaged t A (xs ++ ys) (S k') B (LVs xs ++ LN :: LVs ys ++ repeat LN k')).
Proof.
  intros H. unfold x_aoa_emplace. apply (x_grow_ok H). intros a1 E1 H1. left. unfold aoa_emplace. rewrite E1. cbn [bind].
  pose proof (grown_ge (length (xs ++ ys)) k 1) as G.
  destruct (grown (length (xs ++ ys)) (length (xs ++ ys) + k) 1 - length (xs ++ ys)) as [|g]; [lia|].
  eapply xspec_mono; [apply (x_emplace_v v n H1)|auto|]. intros w t (-> & L & D). split; auto. split; auto. exists g. auto.
Qed.
Lemma x_insert_ok a A xs ys k B vs n : aok a (A ++ (xs ++ ys, k) :: B) ->
  xokb (nogap (A ++ (xs ++ ys, k) :: B)) (x_aoa_insertIntoArray chk false n a (length A) (length xs) vs)
    (fun n' a' => n = n' + length vs /\ aoa_insertIntoArray chk false true false BMalloc a (length A) (length xs) vs = Ok a')
    (fun w t => w = Element /\ n < length vs /\
       exists k', k' = grown (length (xs ++ ys)) (length (xs ++ ys) + k) (length vs) - length (xs ++ ys) /\ length vs <= k' /\
       damaged t A (xs ++ ys) k' B (LVs (xs ++ firstn n vs) ++ repeat LN (length vs - n) ++ LVs ys ++ repeat LN (k' - length vs))).
Proof.
  intros H. unfold x_aoa_insertIntoArray. apply (x_grow_ok H). intros a1 E1 H1. left. unfold aoa_insertIntoArray. rewrite E1. cbn [bind].
  pose proof (grown_ge (length (xs ++ ys)) k (length vs)) as G. eapply xspec_mono; [apply (x_insert_v n H1 G)|auto|].
  intros w t (-> & L & D). split; auto. split; auto. eexists. split; [reflexivity|]. auto.
Qed.

Lemma x_resizeArray_ok a A r k B m v n : aok a (A ++ (r, k) :: B) ->
  xokb (nogap (A ++ (r, k) :: B)) (x_resizeArray chk false n a (length A) m v)
    (fun n' a' => n = n' + (m - length r) /\ resizeArray chk false true false BMalloc a (length A) m v = Ok a')
    (fun w t => w = Element /\ n < m - length r /\
       exists k', k' = Nat.max (length r + k) m - length r /\
       damaged t A r k' B (LVs (r ++ repeat v n) ++ repeat LN (k' - n))).
Proof.
  intros H. pose proof H as [I E].
  pose proof (@resizeArray_ok V unit chk false true fu a A r k B m v H) as RO. cbn [orb AoAProofs.allt andb] in RO.
  unfold x_resizeArray. unfold resizeArray in RO |- *. rewrite (row_check chk I) in RO |- *. cbn [bind] in *.
  rewrite (capacityOf_at chk I (row_nth A (r, k) B)) in RO |- *. cbn [bind xlift xbind] in *. unfold wid in *. cbn [fst snd] in *.
  assert (G : okb (nogap (A ++ (r, k) :: B))
     (if length r + k <? m then setCapacityOfArray chk false true false BMalloc a (length A) m else Ok a)
     (fun a1 => aok a1 (A ++ (r, Nat.max (length r + k) m - length r) :: B))).
  { destruct (Nat.ltb_spec (length r + k) m).
    - pose proof (@setCapacity_ok V V unit idv fu chk false true false a A r k B (length A) m H eq_refl) as S.
      cbn [orb AoAProofs.allt andb] in S. eapply okb_mono; [exact S|]. intros a' A'.
      rewrite firstn_all2 in A' by lia. rewrite Nat.max_r by lia. exact A'.
    - left. apply oks_ok. rewrite Nat.max_l by lia. replace (length r + k - length r) with k by lia. exact H. }
  assert (X : forall (Cc : nat -> aoa -> xout aoa aoa) (Q : nat -> aoa -> Prop) (T : why -> aoa -> Prop), (forall a1, (if length r + k <? m then setCapacityOfArray chk false true false BMalloc a (length A) m else Ok a) = Ok a1 ->
       aok a1 (A ++ (r, Nat.max (length r + k) m - length r) :: B) -> xokb (nogap (A ++ (r, k) :: B)) (Cc n a1) Q T) ->
     xokb (nogap (A ++ (r, k) :: B)) (xbind (if length r + k <? m then xlift n a (setCapacityOfArray chk false true false BMalloc a (length A) m) else XOk n a) Cc) Q T).
  { intros Cc Q T K.
    replace (if length r + k <? m then xlift n a (setCapacityOfArray chk false true false BMalloc a (length A) m) else XOk n a)
      with (xlift n a (if length r + k <? m then setCapacityOfArray chk false true false BMalloc a (length A) m else Ok a))
      by (destruct (length r + k <? m); reflexivity).
    eapply xokb_lift; [exact G|exact K]. }
  apply X. clear X. intros a1 E1 H1. rewrite E1 in *. cbn [bind] in *. clear G.
  pose proof H1 as [I1 _]. rewrite (row_size chk I1) in RO |- *. cbn [bind xlift xbind] in *.
  rewrite (row_check chk I1) in RO |- *. cbn [bind] in *. rewrite (row_off I1) in RO |- *. cbn [bind xlift xbind] in *.
  destruct (aok_row H1) as [q M]. set (K := Nat.max (length r + k) m) in *. left.
  unfold x_am_resize. unfold ArrayManip.resize in *.
  destruct (Nat.le_gt_cases m (length r)) as [Hm|Hm].
  - (* shrinking *)
    replace (m - length r) with 0 in * by lia. cbn [for_up xfor_up] in *.
    assert (D : oks (ArrayManip.destroy false (vals a1) (length (flat idv A) + m) (length r - m)) (fun _ => True)).
    { eapply oks_mono; [eapply destroy_ok with (p := flat idv A ++ LVs (firstn m r)) (m := LVs (skipn m r))
        (s := repeat LN (K - length r) ++ flat idv B ++ repeat LN q)|auto].
      - eapply mem_cast; [exact M|]. lapp. rewrite (app_assoc (LVs (firstn m r))), <- map_app, firstn_skipn. reflexivity.
      - len.
      - len.
      - apply live_LVs. }
    destruct D as (b1 & Eb & _). rewrite Eb in *. cbn [bind xlift xbind xleft] in *.
    destruct RO as [(a' & E' & _)|[_ E']].
    + rewrite E'. rewrite (put_last n E'). cbn [xspec]. split; auto.
    + exfalso. unfold put_size in E'. unfold assign in E'. cbn in E'.
      destruct (store true (szs a1) (length A) (Obj m)) as [z| |f] eqn:Ez; cbn in E'; try discriminate.
      pose proof (@row_put V unit false true fu a1 A r (K - length r) B r (K - length r) (vals a1) q (length A) I1 M eq_refl eq_refl) as (a3 & E3 & _).
      unfold put_size, assign in E3. cbn in E3. clear -E' E3 Ez.
      unfold store, aget, aset in *. cbn [bind] in *. destruct (nth_error (szs a1) (length A)); cbn [bind] in *; try discriminate.
      destruct (length A <? length (szs a1)); destruct c; cbn in *; try discriminate.
  - (* growing *)
    replace (length r - m) with 0 in * by lia. unfold ArrayManip.destroy in *. cbn [for_up] in *. cbn [bind xlift xbind] in *.
    eapply xspec_bind.
    + apply xspec_left. eapply xspec_mono.
      * apply (@x_run_spec V (m - length r) (vals a1) (flat idv A ++ LVs r) (repeat LN (K - m) ++ flat idv B ++ repeat LN q) v n (length r) (length (flat idv A))).
        -- eapply mem_cast; [exact M|]. lapp. do 2 f_equal. rewrite (app_assoc (repeat LN (m - length r))), <- repeat_app_add. do 2 f_equal. lia.
        -- len.
      * intros n' b' X. exact X.
      * intros w t (-> & L & Mt). split; auto. split; auto. exists (K - length r). split; auto.
        apply (@damaged_vals V a1 A r (K - length r) B _ t q (aok_damaged H1)); [len|].
        eapply mem_cast; [exact Mt|]. rewrite map_app. lapp. do 3 f_equal.
        rewrite (app_assoc (repeat LN (m - length r - n))), <- repeat_app_add. do 2 f_equal. lia.
    + intros n' b' (-> & Eb). rewrite Eb in *. cbn [bind] in *.
      destruct RO as [(a' & E' & _)|[_ E']].
      * rewrite E'. rewrite (put_last n' E'). cbn [xspec]. auto.
      * exfalso. unfold put_size in E'. unfold assign in E'. cbn in E'.
        pose proof (@row_put V unit false true fu a1 A r (K - length r) B r (K - length r) (vals a1) q (length A) I1 M eq_refl eq_refl) as (a3 & E3 & _).
        unfold put_size, assign in E3. cbn in E3. clear -E' E3.
        unfold store, aget, aset in *. cbn [bind] in *. destruct (nth_error (szs a1) (length A)); cbn [bind] in *; try discriminate.
        destruct (length A <? length (szs a1)); destruct c; cbn in *; try discriminate.
Qed.
End XStep.
