(** Calls and programs on an ArrayOfArrays, when elements or error handlers throw. *)
From Coq Require Import List Arith ZArith Lia Bool.
From Verif Require Import Base BaseProofs Mem MemProofs ArrayManipProofs BufferManip BufferManipProofs AoA AoASpec AoALayout AoAProofs AoAProofs2 AoAProofs3.
From Verif Require Import Throw ThrowProofs ThrowAoA ThrowAoASpec ThrowAoAProofs ThrowAoAProofs2.
From Verif Require ArrayManip AoAProofs4 PropAoA.
Import AoAProofs4(arep, row_at, put_mid, ins_mid, rem_mid, split_le, split_lt, nth_mid, full_nogap, nogap_ins, nogap_snoc, grown_ge2, badb, okb_bad).
Import ListNotations.
Set Implicit Arguments.
Unset Strict Implicit.

Section Step.
Variable V : Type.
Variable chk : bool.
Variable dflt : V.
Notation aoa := (aoa V unit).
Notation row := (list V * nat)%type.
Notation rows := (list row).
Notation idv := (fun v : V => v).
Notation fu := (fun _ : V => tt).
Notation aok := (@aok V V unit idv fu false true false).
Notation iok := (@iok V V unit).
Notation arep := (@AoAProofs4.arep V unit false true fu).
Notation mem := (@mem V false).
Notation LVs := (map (@LV V)).
Notation damaged := (@damaged V).
Notation dtor := (aoa_dtor chk false true false BMalloc).
Notation displays := (PropAoA.displays chk).
Implicit Types a t : aoa.
Implicit Types A B L : rows.

(** Sizes as they were; elements readable but those of one array from one position on. *)
Definition keeps t (M : list (list V)) (g : nat * nat) : Prop :=
  numArrays t = length M /\
  (forall i r, nth_error M i = Some r -> sizeOfArray chk t i = Ok (length r)) /\
  (forall i r j v, nth_error M i = Some r -> nth_error r j = Some v -> i <> fst g \/ j < snd g -> aoa_at chk t i j = Ok v).

(** The object left behind. *)
Definition left_as (s : state_left) t (M N : list (list V)) (K : list nat) (g : nat * nat) : Prop :=
  match s with
  | Usable => arep t N K
  | Forgets => dtor t = Fault FLeak /\ displays t N
  | Corrupt => dtor t = Fault FDestroy /\ keeps t M g
  end.

Lemma damaged_keeps t A r k B xs ys s : damaged t A r k B (LVs xs ++ s) -> r = xs ++ ys ->
  keeps t (map fst (A ++ (r, k) :: B)) (length A, length xs).
Proof.
  intros D ->. pose proof D as (I & _). pose proof I as (N & _).
  split; [rewrite N, map_length; reflexivity|]. split.
  - intros i r Hr. rewrite nth_error_map in Hr. destruct (nth_error (A ++ (xs ++ ys, k) :: B) i) as [x|] eqn:E; [|discriminate].
    simpl in Hr. injection Hr as <-. exact (damaged_size chk D E).
  - intros i r j v Hr Hv G. cbn [fst snd] in G. rewrite nth_error_map in Hr.
    destruct (nth_error (A ++ (xs ++ ys, k) :: B) i) as [x|] eqn:E; [|discriminate]. simpl in Hr. injection Hr as <-.
    destruct (Nat.eq_dec i (length A)) as [->|Hi]; [|exact (damaged_other chk D Hi E Hv)].
    destruct G as [G|G]; [lia|]. rewrite row_nth in E. injection E as <-. cbn [fst] in Hv.
    eapply damaged_own; [exact D|rewrite app_length; lia|]. rewrite nth_error_app1 in Hv by lia.
    rewrite nth_error_app1 by len. apply map_nth_error. exact Hv.
Qed.

(** Values built behind the elements of an inner array, whose size was not stored. *)
Lemma after_tail t A r k B ws g M N K : damaged t A r k B (LVs (r ++ ws) ++ repeat LN (k - length ws)) ->
  N = map fst (A ++ (r, k) :: B) -> K = map (@wid V) (A ++ (r, k) :: B) ->
  left_as (if length ws =? 0 then Usable else Forgets) t M N K g.
Proof.
  intros D -> ->. destruct ws as [|w ws]; cbn [length Nat.eqb left_as].
  - rewrite app_nil_r, Nat.sub_0_r in D. exists (A ++ (r, k) :: B). split; [exact (damaged_aok D)|auto].
  - rewrite map_app, <- app_assoc in D. split.
    + eapply (@dtor_forgets V chk t A r k B (LVs r) []); [exact D|apply live_LVs|len].
    + rewrite map_app. exact (damaged_displays chk D eq_refl).
Qed.

Lemma after_insert t A xs ys k B ws n M N K : damaged t A (xs ++ ys) k B (LVs (xs ++ firstn n ws) ++ repeat LN (length ws - n) ++ LVs ys ++ repeat LN (k - length ws)) ->
  n < length ws -> length ws <= k -> M = map fst (A ++ (xs ++ ys, k) :: B) -> K = map (@wid V) (A ++ (xs ++ ys, k) :: B) ->
  N = map fst (A ++ (firstn (length (xs ++ ys)) (xs ++ firstn n ws), k) :: B) ->
  left_as (if length xs + n <? length (xs ++ ys) then Corrupt
           else if ((length xs =? length (xs ++ ys)) && (n =? 0))%bool then Usable else Forgets) t M N K (length A, length xs).
Proof.
  intros D Hn Hk -> -> ->.
  destruct (Nat.ltb_spec (length xs + n) (length (xs ++ ys))) as [Hg|Hg]; cbn [left_as].
  - replace (length ws - n) with (S (length ws - n - 1)) in D by lia. cbn [repeat app] in D. split.
    + eapply dtor_corrupt; [exact D|apply live_LVs|]. rewrite map_length, app_length, firstn_length. lia.
    + rewrite map_app, <- app_assoc in D. exact (damaged_keeps D eq_refl).
  - destruct (Nat.eqb_spec (length xs) (length (xs ++ ys))) as [Hx|Hx]; [destruct (Nat.eqb_spec n 0) as [->|H0]|]; cbn [andb left_as].
    + assert (ys = []) by (rewrite app_length in Hx; destruct ys; [auto|simpl in Hx; lia]). subst ys. rewrite app_nil_r in *. cbn [firstn] in *.
      rewrite app_nil_r in *. cbn [map app] in *. rewrite Nat.sub_0_r, <- repeat_app_add in D.
      replace (length ws + (k - length ws)) with k in D by lia. exists (A ++ (xs, k) :: B). split; [exact (damaged_aok D)|].
      rewrite firstn_all. auto.
    + assert (ys = []) by (rewrite app_length in Hx; destruct ys; [auto|simpl in Hx; lia]). subst ys. rewrite app_nil_r in *.
      assert (R : firstn (length xs) (xs ++ firstn n ws) = xs) by (apply firstn_app_exact; auto). rewrite R.
      destruct n as [|n]; [lia|]. destruct ws as [|w ws]; [simpl in Hn; lia|]. cbn [firstn] in D.
      rewrite map_app, <- app_assoc in D. split.
      * eapply (@dtor_forgets V chk t A xs k B (LVs xs) []); [exact D|apply live_LVs|len].
      * rewrite map_app. exact (damaged_displays chk D eq_refl).
    + assert (Y : ys <> []) by (intros ->; apply Hx; rewrite app_nil_r; auto). destruct ys as [|y ys]; [congruence|].
      set (r := xs ++ y :: ys) in *. set (zs := xs ++ firstn n ws) in *.
      assert (Lz : length r <= length zs) by (unfold zs; rewrite app_length, firstn_length; lia).
      assert (D' : damaged t A r k B (LVs (firstn (length r) zs) ++ (LVs (skipn (length r) zs) ++ repeat LN (length ws - n)) ++ LV y :: LVs ys ++ repeat LN (k - length ws))).
      { rewrite <- (firstn_skipn (length r) zs), map_app in D. rewrite <- !app_assoc in *. exact D. }
      assert (Lf : length (firstn (length r) zs) = length r) by (rewrite firstn_length; lia). split.
      * eapply dtor_forgets; [exact D'|apply live_LVs|len].
      * rewrite map_app. exact (damaged_displays chk D' Lf).
Qed.

Lemma xokb_cast {X Y} b b' (x : xout X Y) Q T : b = b' -> xokb b x Q T -> xokb b' x Q T.
Proof. intros ->. auto. Qed.
Lemma xokb_bind_lift {X} b n a (m : outcome X) (P : X -> Prop) (k : nat -> X -> xout aoa aoa) Q T :
  oks m P -> (forall x, m = Ok x -> P x -> xokb b (k n x) Q T) -> xokb b (xbind (xlift n a m) k) Q T.
Proof. intros (x & -> & Px) H. simpl. auto. Qed.

(** A call that builds nothing. *)
Lemma x_plain c a M K M' n : arep a M K -> vec_step dflt c M = Some M' -> acost c M = 0 ->
  x_astep chk false dflt n c a = xlift n a (astep chk false true false BMalloc dflt c a) ->
  xokb (full M K) (x_astep chk false dflt n c a)
    (fun n' a' => n = n' + acost c M /\ astep chk false true false BMalloc dflt c a = Ok a')
    (fun w t => w = Element /\ n < acost c M /\ left_as (aleft c M n) t M (acontents c M n) (cap_step c M K) (gap_at c)).
Proof.
  intros R H Z ->. pose proof (@AoAProofs4.step_ok V unit chk false true fu dflt c a M K R) as S. rewrite H in S. cbn [orb] in S.
  destruct S as [(a' & -> & _)|[F ->]]; [left|right; auto]. cbn [xlift xspec]. rewrite Z. auto.
Qed.

Theorem x_step_ok c a M K M' n : arep a M K -> vec_step dflt c M = Some M' ->
  xokb (full M K) (x_astep chk false dflt n c a)
    (fun n' a' => n = n' + acost c M /\ astep chk false true false BMalloc dflt c a = Ok a')
    (fun w t => w = Element /\ n < acost c M /\ left_as (aleft c M n) t M (acontents c M n) (cap_step c M K) (gap_at c)).
Proof.
  intros R Y. pose proof R as (L & H & EM & EK).
  assert (G : nogap L = full M K) by (subst; symmetry; apply full_nogap).
  destruct c as [m cap|caps|m|m| |m|vs|i vs|i|i v|i vs|i j v|i j vs|i j m|i m v|i|i cc|i j v];
    try (eapply x_plain; [exact R|exact Y|reflexivity|reflexivity]).
  - (* appendArray *)
    unfold x_astep, x_appendArray, astep, appendArray. apply (xokb_cast G). eapply xokb_bind_lift; [exact (push_ok chk H)|].
    intros a1 E1 H1. rewrite E1. cbn [bind]. pose proof H1 as [(N1 & _) _]. rewrite N1. replace (length (L ++ [([], 0)]) - 1) with (length L) by len.
    pose proof (@x_resizeArray_ok V chk a1 L [] 0 [] m dflt n H1) as S. cbn [length app] in S. rewrite (nogap_snoc L false : nogap (L ++ [([], 0)]) = nogap L) in S.
    cbn [acost]. eapply xokb_mono; [exact S| |].
    + intros n' a' [E0 E']. rewrite Nat.sub_0_r in E0. auto.
    + intros w t (-> & Hn & k' & -> & D). rewrite Nat.sub_0_r in Hn. split; auto. split; auto. cbn [plus] in *. rewrite Nat.sub_0_r, Nat.max_0_l in D.
      cbn [aleft acontents cap_step]. pose proof (repeat_length dflt n) as Ln. rewrite <- Ln at 1.
      eapply after_tail; [rewrite Ln; exact D| |]; subst; rewrite !map_app; reflexivity.
  - (* appendArray from a range *)
    unfold x_astep, x_appendArrayFrom, astep, appendArrayFrom. apply (xokb_cast G). eapply xokb_bind_lift; [exact (push_ok chk H)|].
    intros a1 E1 H1. rewrite E1. cbn [bind]. pose proof H1 as [(N1 & _) _]. rewrite N1. replace (length (L ++ [([], 0)]) - 1) with (length L) by len.
    pose proof (@x_append_ok V chk a1 L [] 0 [] vs n H1) as S. cbn [length app] in S. rewrite (nogap_snoc L false : nogap (L ++ [([], 0)]) = nogap L) in S.
    cbn [acost]. eapply xokb_mono; [exact S| |].
    + intros n' a' E0. exact E0.
    + intros w t (-> & Hn & k' & -> & Hk & D). split; auto. split; auto.
      cbn [aleft acontents cap_step]. assert (Ln : length (firstn n vs) = n) by (rewrite firstn_length; lia). rewrite <- Ln at 1.
      eapply after_tail; [rewrite Ln; exact D| |]; subst; rewrite !map_app; [reflexivity|].
      cbn [map]. unfold wid. cbn [fst snd length plus]. do 2 f_equal. unfold grown. cbn [plus]. destruct (Nat.ltb_spec 0 (length vs)); lia.
  - (* insertArray *)
    cbn [vec_step] in Y. destruct (Nat.leb_spec i (length M)) as [Hi|]; [|discriminate]. rewrite <- EM, map_length in Hi.
    destruct (split_le Hi) as (A & B & -> & <-).
    unfold x_astep, x_insertArray, astep, insertArray. apply (xokb_cast G). eapply xokb_bind_lift; [exact (open_ok chk H eq_refl)|].
    intros a1 E1 H1. rewrite E1. cbn [bind].
    pose proof (@x_append_ok V chk a1 A [] 0 B vs n H1) as S. cbn [length app] in S. rewrite (nogap_ins A B false : nogap (A ++ ([], 0) :: B) = nogap (A ++ B)) in S.
    cbn [acost]. eapply xokb_mono; [exact S| |].
    + intros n' a' E0. exact E0.
    + intros w t (-> & Hn & k' & -> & Hk & D). split; auto. split; auto.
      cbn [aleft acontents cap_step]. assert (Ln : length (firstn n vs) = n) by (rewrite firstn_length; lia). rewrite <- Ln at 1.
      eapply after_tail; [rewrite Ln; exact D| |]; subst; rewrite !map_app; rewrite ins_mid by len; [reflexivity|].
      cbn [map]. do 2 f_equal. unfold wid. cbn [fst snd length plus]. unfold grown. cbn [plus]. destruct (Nat.ltb_spec 0 (length vs)); lia.
  - (* emplaceBack *)
    cbn [vec_step] in Y. unfold on_row in Y. destruct (nth_error M i) as [r|] eqn:Er; [|discriminate]. rewrite <- EM in Er.
    destruct (row_at Er) as (A & k & B & -> & <-). apply (xokb_cast G). unfold x_astep, astep.
    eapply xokb_mono; [apply (x_emplaceBack_ok chk v n H)|auto|]. intros w t (-> & Hn & A1). split; auto. split; auto.
    cbn [aleft acontents cap_step left_as]. unfold cap_grow. subst M K.
    assert (X1 : nth (length A) (map fst (A ++ (r, k) :: B)) [] = r) by (rewrite map_app; apply nth_mid; len).
    assert (X2 : nth (length A) (map (@wid V) (A ++ (r, k) :: B)) 0 = length r + k) by (rewrite map_app; apply nth_mid; len).
    rewrite X1, X2. eexists. split; [exact A1|]. rewrite !map_app. cbn [map fst]. split; auto. rewrite put_mid by len.
    pose proof (grown_ge2 (length r) k 1). do 2 f_equal. unfold wid. cbn [fst snd]. lia.
  - (* appendToArray *)
    cbn [vec_step] in Y. unfold on_row in Y. destruct (nth_error M i) as [r|] eqn:Er; [|discriminate]. rewrite <- EM in Er.
    destruct (row_at Er) as (A & k & B & -> & <-). apply (xokb_cast G). unfold x_astep, astep.
    eapply xokb_mono; [apply (x_append_ok chk vs n H)|auto|]. intros w t (-> & Hn & k' & -> & Hk & D). split; auto. split; auto.
    cbn [aleft acontents cap_step]. unfold cap_grow. subst M K.
    assert (X1 : nth (length A) (map fst (A ++ (r, k) :: B)) [] = r) by (rewrite map_app; apply nth_mid; len).
    assert (X2 : nth (length A) (map (@wid V) (A ++ (r, k) :: B)) 0 = length r + k) by (rewrite map_app; apply nth_mid; len).
    rewrite X1, X2. assert (Ln : length (firstn n vs) = n) by (rewrite firstn_length; lia). rewrite <- Ln at 1.
    eapply after_tail; [rewrite Ln; exact D| |]; rewrite !map_app; [reflexivity|]. cbn [map]. rewrite put_mid by len.
    pose proof (grown_ge2 (length r) k (length vs)). do 2 f_equal. unfold wid. cbn [fst snd]. lia.
  - (* emplace *)
    cbn [vec_step] in Y. unfold on_row in Y. destruct (nth_error M i) as [r|] eqn:Er; [|discriminate]. rewrite <- EM in Er.
    destruct (Nat.leb_spec j (length r)) as [Hj|]; [|discriminate].
    destruct (row_at Er) as (A & k & B & -> & <-). destruct (split_le Hj) as (xs & ys & -> & <-).
    apply (xokb_cast G). unfold x_astep, astep.
    eapply xokb_mono; [apply (x_emplace_ok chk v n H)|auto|]. intros w t (-> & Hn & k' & Ek & D). split; auto. split; auto.
    assert (X1 : nth (length A) M [] = xs ++ ys) by (subst M; rewrite map_app; apply nth_mid; len).
    assert (X2 : nth (length A) K 0 = length (xs ++ ys) + k) by (subst K; rewrite map_app; apply nth_mid; len).
    assert (EK' : cap_step (AEmplace (length A) (length xs) v) M K = map (@wid V) (A ++ (xs ++ ys, S k') :: B)).
    { cbn [cap_step]. unfold cap_grow. rewrite X1, X2. rewrite <- EK, !map_app. cbn [map]. rewrite put_mid by len. do 2 f_equal. unfold wid. cbn [fst snd].
      pose proof (grown_ge2 (length (xs ++ ys)) k 1). lia. }
    rewrite EK'. cbn [aleft acontents gap_at]. rewrite X1.
    pose proof (@after_insert t A xs ys (S k') B [v] 0 M M (map (@wid V) (A ++ (xs ++ ys, S k') :: B))) as P.
    cbn [length firstn Nat.sub repeat app] in P. rewrite app_nil_r, Nat.add_0_r, Nat.sub_0_r in P.
    assert (EM' : M = map fst (A ++ (xs ++ ys, S k') :: B)) by (rewrite <- EM, !map_app; reflexivity).
    destruct (Nat.eqb_spec (length xs) (length (xs ++ ys))) as [Hx|Hx].
    + assert (ys = []) by (rewrite app_length in Hx; destruct ys; [auto|simpl in Hx; lia]). subst ys. rewrite app_nil_r in *.
      destruct (Nat.ltb_spec (length xs) (length xs)); [lia|]. cbn [andb Nat.eqb] in P. apply P; auto; [lia|].
      rewrite firstn_all. exact EM'.
    + destruct (Nat.ltb_spec (length xs) (length (xs ++ ys))); [|rewrite app_length in *; lia]. cbn [left_as] in *.
      split.
      * eapply dtor_corrupt; [exact D|apply live_LVs|len].
      * rewrite EM'. exact (damaged_keeps D eq_refl).
  - (* insertIntoArray *)
    cbn [vec_step] in Y. unfold on_row in Y. destruct (nth_error M i) as [r|] eqn:Er; [|discriminate]. rewrite <- EM in Er.
    destruct (Nat.leb_spec j (length r)) as [Hj|]; [|discriminate].
    destruct (row_at Er) as (A & k & B & -> & <-). destruct (split_le Hj) as (xs & ys & -> & <-).
    apply (xokb_cast G). unfold x_astep, astep.
    eapply xokb_mono; [apply (x_insert_ok chk vs n H)|auto|]. intros w t (-> & Hn & k' & -> & Hk & D). split; auto. split; auto.
    assert (X1 : nth (length A) M [] = xs ++ ys) by (subst M; rewrite map_app; apply nth_mid; len).
    assert (X2 : nth (length A) K 0 = length (xs ++ ys) + k) by (subst K; rewrite map_app; apply nth_mid; len).
    cbn [aleft acontents gap_at]. rewrite X1. eapply after_insert; [exact D|exact Hn|exact Hk| | |].
    + rewrite <- EM, !map_app. reflexivity.
    + cbn [cap_step]. unfold cap_grow. rewrite X1, X2. rewrite <- EK, !map_app. cbn [map]. rewrite put_mid by len. do 2 f_equal. unfold wid. cbn [fst snd].
      pose proof (grown_ge2 (length (xs ++ ys)) k (length vs)). lia.
    + rewrite <- EM, !map_app. cbn [map]. rewrite put_mid by len. cbn [fst]. rewrite (firstn_app_exact xs) by auto. reflexivity.
  - (* resizeArray *)
    cbn [vec_step] in Y. unfold on_row in Y. destruct (nth_error M i) as [r|] eqn:Er; [|discriminate]. rewrite <- EM in Er.
    destruct (row_at Er) as (A & k & B & -> & <-). apply (xokb_cast G). unfold x_astep, astep.
    assert (X1 : nth (length A) M [] = r) by (subst M; rewrite map_app; apply nth_mid; len).
    assert (X2 : nth (length A) K 0 = length r + k) by (subst K; rewrite map_app; apply nth_mid; len).
    cbn [acost aleft acontents cap_step]. rewrite X1, X2.
    eapply xokb_mono; [apply (x_resizeArray_ok chk m v n H)|auto|]. intros w t (-> & Hn & k' & -> & D). split; auto. split; auto.
    pose proof (repeat_length v n) as Ln. rewrite <- Ln at 1.
    eapply after_tail; [rewrite Ln; exact D| |].
    + rewrite <- EM, !map_app. reflexivity.
    + rewrite <- EK, !map_app. cbn [map]. rewrite put_mid by len. do 2 f_equal. unfold wid. cbn [fst snd]. lia.
  - (* assignment *)
    cbn [vec_step] in Y. unfold on_row in Y. destruct (nth_error M i) as [r|] eqn:Er; [|discriminate]. rewrite <- EM in Er.
    destruct (Nat.ltb_spec j (length r)) as [Hj|]; [|discriminate].
    destruct (row_at Er) as (A & k & B & -> & <-). destruct (split_lt Hj) as (xs & y & ys & -> & <-).
    unfold x_astep, astep. left. eapply xspec_mono; [apply (x_set_v chk v n H)|auto|]. intros w t (-> & Hn & A1). split; auto. split; auto.
    cbn [aleft acontents cap_step left_as]. eexists. split; [exact A1|]. auto.
Qed.

(** Programs *)
Definition ended (s : state_left) t (M : list (list V)) : Prop :=
  match s with
  | Usable => exists K, arep t M K
  | Forgets => dtor t = Fault FLeak /\ displays t M
  | Corrupt => dtor t = Fault FDestroy
  end.

Theorem x_run_ok h : forall a M K M' s, arep a M K -> afate dflt h M = Some (M', s) ->
  okb (afull dflt h M K) (x_arun chk false dflt h a) (fun t => ended s t M').
Proof.
  induction h as [|[n c] h IH]; intros a M K M' s R F; cbn [afate x_arun afull] in *.
  - injection F as <- <-. left. apply oks_ok. exists K. exact R.
  - destruct (vec_step dflt c M) as [M1|] eqn:Y; [|discriminate].
    pose proof (x_step_ok n R Y) as S. destruct S as [S|[FF ->]]; [|right; rewrite FF; auto].
    pose proof (@AoAProofs4.step_ok V unit chk false true fu dflt c a M K R) as S0. rewrite Y in S0. cbn [orb] in S0.
    assert (Q : forall b : bool, b = false -> (full M K && b)%bool = false) by (intros b ->; apply andb_false_r).
    destruct (x_astep chk false dflt n c a) as [n' a'|w t|f]; cbn [xspec] in S; [| |contradiction].
    + destruct S as [-> E]. destruct (Nat.leb_spec (acost c M) (n' + acost c M)); [|lia].
      destruct S0 as [(a1 & E1 & R1)|[_ E1]]; rewrite E in E1; [|discriminate]. injection E1 as <-.
      destruct (IH _ _ _ _ _ R1 F) as [I|[I1 I2]]; [left; exact I|right; auto].
    + destruct S as (-> & Hn & LA). destruct (Nat.leb_spec (acost c M) n); [lia|].
      destruct (aleft c M n); cbn [left_as] in LA.
      * rewrite (AoAProofs4.dtor_ok chk LA). destruct (IH _ _ _ _ _ LA F) as [I|[I1 I2]]; [left; exact I|right; auto].
      * injection F as <- <-. pose proof LA as [D _]. rewrite D. left. apply oks_ok. exact LA.
      * injection F as <- <-. destruct LA as [D _]. rewrite D. left. apply oks_ok. exact D.
Qed.
End Step.

(** A throwing error handler: the contents are as before. *)
Section Errors.
Variable V : Type.
Variable dflt : V.
Notation aoa := (aoa V unit).
Notation fu := (fun _ : V => tt).
Notation idv := (fun v : V => v).
Notation arep tv := (@AoAProofs4.arep V unit tv true fu).
Implicit Types a t : aoa.

Lemma lift_abort {X} n a (m : outcome X) b : badb b m -> xlift n a m = XThrow Error a \/ b = false /\ xlift n a m = XFault FMove.
Proof. intros [->|[E ->]]; auto. Qed.

Theorem x_error_ok tv c a M K n : arep tv a M K -> vec_step dflt c M = None ->
  (exists t K', x_astep true tv dflt n c a = XThrow Error t /\ arep tv t M K') \/
  (tv || full M K)%bool = false /\ x_astep true tv dflt n c a = XFault FMove.
Proof.
  intros R Y. pose proof (@AoAProofs4.step_ok V unit true tv true fu dflt c a M K R) as S. rewrite Y in S. specialize (S eq_refl).
  assert (P : forall x, x = xlift n a (astep true tv true false BMalloc dflt c a) ->
    (exists t K', x = XThrow Error t /\ arep tv t M K') \/ (tv || full M K)%bool = false /\ x = XFault FMove).
  { intros x ->. destruct (lift_abort n a S) as [->|[E ->]]; [left|right; auto]. exists a, K. auto. }
  pose proof R as (L & H & EM & EK). pose proof H as [I _].
  assert (G : (tv || nogap L)%bool = (tv || full M K)%bool) by (subst; rewrite full_nogap; reflexivity).
  assert (Gr : forall i inc (C : nat -> aoa -> xout aoa aoa),
     (nth_error M i = None \/ exists r, nth_error M i = Some r /\
        forall a1 A k B, iok a1 (A ++ (r, k) :: B) -> length A = i -> C n a1 = XThrow Error a1) ->
     (exists t K', xbind (x_grow true tv n a i inc) C = XThrow Error t /\ arep tv t M K') \/
     (tv || full M K)%bool = false /\ xbind (x_grow true tv n a i inc) C = XFault FMove).
  { intros i inc C [N|(r & N & X)].
    - apply nth_error_None in N. rewrite <- EM, map_length in N. left. exists a, K. split; auto.
      unfold x_grow, dynamicallyGrowArray. rewrite (AoAProofs4.size_bad eq_refl I N). reflexivity.
    - rewrite <- EM in N. destruct (row_at N) as (A & k & B & -> & <-). unfold x_grow.
      pose proof (@grow_ok V unit true tv true fu a A r k B inc H) as GO. rewrite (allt_tv tv true), G in GO.
      destruct GO as [(a1 & -> & H1)|[E ->]]; [left|right; auto]. cbn [xlift xbind]. pose proof H1 as [I1 _].
      rewrite (X _ _ _ _ I1 eq_refl). eexists a1, _. split; [reflexivity|]. eexists. split; [exact H1|]. rewrite <- EM, !map_app. auto. }
  destruct c as [m cap|caps|m|m| |m|vs|i vs|i|i v|i vs|i j v|i j vs|i j m|i m v|i|i cc|i j v];
    try (apply P; reflexivity); try discriminate; cbn [vec_step] in Y; unfold x_astep.
  - destruct (Nat.leb_spec i (length M)) as [|Hi]; [discriminate|]. rewrite <- EM, map_length in Hi. left. exists a, K. split; auto.
    unfold x_insertArray, open_array. rewrite (AoAProofs4.check_insert_bad eq_refl I Hi). reflexivity.
  - apply Gr. left. unfold on_row in Y. destruct (nth_error M i); [discriminate|auto].
  - apply Gr. left. unfold on_row in Y. destruct (nth_error M i); [discriminate|auto].
  - apply Gr. unfold on_row in Y. destruct (nth_error M i) as [r|]; [right|auto]. exists r. split; auto. intros a1 A k B I1 <-.
    destruct (Nat.leb_spec j (length r)) as [|Hj]; [discriminate|]. unfold x_v_emplace. rewrite (AoAProofs4.insert2_bad eq_refl I1 Hj). reflexivity.
  - apply Gr. unfold on_row in Y. destruct (nth_error M i) as [r|]; [right|auto]. exists r. split; auto. intros a1 A k B I1 <-.
    destruct (Nat.leb_spec j (length r)) as [|Hj]; [discriminate|]. unfold x_v_insertIntoArray. rewrite (AoAProofs4.insert2_bad eq_refl I1 Hj). reflexivity.
  - unfold on_row in Y. destruct (nth_error M i) as [r|] eqn:N; [discriminate|]. apply nth_error_None in N. rewrite <- EM, map_length in N.
    left. exists a, K. split; auto. unfold x_resizeArray. rewrite (AoAProofs4.check_array_bad eq_refl I N). reflexivity.
  - left. exists a, K. split; auto. unfold x_aoa_set, slot. unfold on_row in Y. destruct (nth_error M i) as [r|] eqn:N.
    + rewrite <- EM in N. destruct (row_at N) as (A & k & B & -> & <-). destruct (Nat.ltb_spec j (length r)) as [|Hj]; [discriminate|].
      rewrite (AoAProofs4.check2_bad2 eq_refl I Hj). reflexivity.
    + apply nth_error_None in N. rewrite <- EM, map_length in N. rewrite (AoAProofs4.check2_bad1 _ eq_refl I N). reflexivity.
Qed.
End Errors.
