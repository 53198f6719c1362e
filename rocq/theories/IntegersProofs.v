From Coq Require Import ZArith Lia Bool.
From Verif Require Import Base Integers.
Local Open Scope Z_scope.
Set Implicit Arguments.

Definition fits (t : ity) (x : Z) : Prop := tmin t <= x <= tmax t.
Definition wf (t : ity) : Prop := 1 <= sizeof t.

Lemma pow_split n : 1 <= n -> 2 ^ n = 2 * 2 ^ (n - 1).
Proof. intros H. replace n with (Z.succ (n - 1)) at 1 by lia. rewrite Z.pow_succ_r by lia. reflexivity. Qed.
Lemma pow_pos n : 0 <= n -> 0 < 2 ^ n.
Proof. intros H. apply Z.pow_pos_nonneg; lia. Qed.
Lemma pow_le a b : 0 <= a <= b -> 2 ^ a <= 2 ^ b.
Proof. intros H. apply Z.pow_le_mono_r; lia. Qed.

Lemma cast_id t x : wf t -> fits t x -> static_cast t x = x.
Proof.
  unfold wf, fits, tmin, tmax, static_cast. destruct t as [b s|]; cbn [is_signed sizeof bits].
  - intros W H. unfold bits in *. cbn [sizeof] in *. pose proof (@pow_split (8 * b) ltac:(lia)) as P. pose proof (@pow_pos (8 * b - 1) ltac:(lia)) as Q. destruct s; cbn [andb].
    + destruct (Z.leb_spec (2 ^ (8 * b - 1)) (x mod 2 ^ (8 * b))) as [L|L].
      * destruct (Z.lt_ge_cases x 0) as [N|N].
        -- replace x with (x + 2 ^ (8 * b) + (-1) * 2 ^ (8 * b)) at 1 by lia. rewrite Z.mod_add by lia. rewrite Z.mod_small by lia. lia.
        -- rewrite Z.mod_small in L by lia. lia.
      * destruct (Z.lt_ge_cases x 0) as [N|N].
        -- replace x with (x + 2 ^ (8 * b) + (-1) * 2 ^ (8 * b)) in L by lia. rewrite Z.mod_add, Z.mod_small in L by lia. lia.
        -- rewrite Z.mod_small by lia. reflexivity.
    + apply Z.mod_small. lia.
  - intros _ H. destruct (Z.eqb_spec x 0); lia.
Qed.
Lemma fits_cast t x : wf t -> fits t (static_cast t x).
Proof.
  unfold wf, fits, tmin, tmax, static_cast. destruct t as [b s|]; cbn [is_signed sizeof].
  - intros W. unfold bits in *. cbn [sizeof] in *. pose proof (@pow_split (8 * b) ltac:(lia)) as P. pose proof (@pow_pos (8 * b - 1) ltac:(lia)) as Q.
    pose proof (Z.mod_pos_bound x (2 ^ (8 * b)) ltac:(lia)) as B. destruct s; cbn [andb]; [|lia].
    destruct (Z.leb_spec (2 ^ (8 * b - 1)) (x mod 2 ^ (8 * b))); lia.
  - intros _. destruct (x =? 0); lia.
Qed.
(** The ranges by size. *)
Lemma range_int b s x : 1 <= b -> fits (TInt b s) x <-> (if s then - 2 ^ (8 * b - 1) <= x < 2 ^ (8 * b - 1) else 0 <= x < 2 ^ (8 * b)).
Proof. intros H. unfold fits, tmin, tmax, bits. cbn [is_signed sizeof]. destruct s; lia. Qed.
Lemma range_bool x : fits TBool x <-> 0 <= x <= 1.
Proof. unfold fits, tmin, tmax. cbn. reflexivity. Qed.

Lemma fits_wider b b' s x : 1 <= b <= b' -> fits (TInt b s) x -> fits (TInt b' s) x.
Proof.
  intros H. rewrite !range_int by lia. pose proof (@pow_le (8 * b) (8 * b') ltac:(lia)). pose proof (@pow_le (8 * b - 1) (8 * b' - 1) ltac:(lia)). destruct s; lia.
Qed.
Lemma fits_nonneg b s x : 1 <= b -> fits (TInt b s) x -> 0 <= x -> forall b' s', b < b' \/ (b <= b' /\ (s = true \/ s' = false)) -> fits (TInt b' s') x.
Proof.
  intros Hb F N b' s' H. rewrite !range_int in * by lia. pose proof (@pow_le (8 * b) (8 * b') ltac:(lia)). pose proof (@pow_le (8 * b - 1) (8 * b' - 1) ltac:(lia)).
  pose proof (@pow_split (8 * b) ltac:(lia)). pose proof (@pow_split (8 * b') ltac:(lia)). pose proof (@pow_pos (8 * b - 1) ltac:(lia)). pose proof (@pow_pos (8 * b' - 1) ltac:(lia)).
  destruct s, s'; try lia. destruct H as [H|[H [K|K]]]; try discriminate. pose proof (@pow_le (8 * b) (8 * b' - 1) ltac:(lia)). lia.
Qed.

Lemma promote_fits t x : wf t -> fits t x -> fits (promote t) x.
Proof.
  unfold promote, wf. intros W F. destruct (Z.ltb_spec (sizeof t) 4); auto. unfold int_t. destruct t as [b s|]; cbn [sizeof] in *.
  - destruct s; [eapply fits_wider; [|exact F]; lia|]. eapply fits_nonneg; [exact W|exact F| |left; lia]. rewrite range_int in F by lia. lia.
  - rewrite range_bool in F. rewrite range_int by lia. simpl. lia.
Qed.
Lemma promote_int t : exists b s, promote t = TInt b s /\ 4 <= b /\ (s = true -> sizeof t < 4 \/ is_signed t = true) /\ (s = is_signed t \/ sizeof t < 4) /\ (sizeof t < 4 -> b = 4 /\ s = true) /\ (4 <= sizeof t -> b = sizeof t /\ s = is_signed t).
Proof.
  unfold promote. destruct (Z.ltb_spec (sizeof t) 4); [exists 4, true; unfold int_t; intuition lia|].
  destruct t as [b s|]; cbn [sizeof] in *; [exists b, s; cbn; intuition lia|lia].
Qed.
(** Comparisons which are those of the mathematical integers. *)
Lemma cmp_same t u x y : wf t -> wf u -> fits t x -> fits u y ->
  (0 <= x \/ is_signed (promote u) = is_signed (promote t) \/ sizeof (promote u) < sizeof (promote t)) ->
  (0 <= y \/ is_signed (promote u) = is_signed (promote t) \/ sizeof (promote t) < sizeof (promote u)) ->
  static_cast (common t u) x = x /\ static_cast (common t u) y = y.
Proof.
  intros Wt Wu Ft Fu Hx Hy. apply promote_fits in Ft; auto. apply promote_fits in Fu; auto.
  destruct (promote_int t) as (b & s & Ep & Lb & _). destruct (promote_int u) as (b' & s' & Eq & Lb' & _). unfold common. rewrite Ep, Eq in *. cbn [is_signed sizeof] in *.
  assert (K : forall c sc, 4 <= c -> fits (TInt c sc) x -> fits (TInt c sc) y -> static_cast (TInt c sc) x = x /\ static_cast (TInt c sc) y = y)
    by (intros c sc Lc F1 F2; split; apply cast_id; auto; unfold wf; cbn; lia).
  destruct s, s'; cbn [eqb].
  - destruct (Z.ltb_spec b b'); apply K; auto; eapply fits_wider; try eassumption; lia.
  - cbn [sizeof]. destruct (Z.ltb_spec b' b).
    + apply K; auto. eapply fits_nonneg; [|exact Fu| |left]; [lia|apply range_int in Fu; lia|lia].
    + apply K; auto. destruct Hx as [Hx|[Hx|Hx]]; [|discriminate|lia]. eapply fits_nonneg; [|exact Ft|exact Hx|right]; [lia|intuition lia].
  - cbn [sizeof]. destruct (Z.ltb_spec b b').
    + apply K; auto. eapply fits_nonneg; [|exact Ft| |left]; [lia|apply range_int in Ft; lia|lia].
    + apply K; auto. destruct Hy as [Hy|[Hy|Hy]]; [|discriminate|lia]. eapply fits_nonneg; [|exact Fu|exact Hy|right]; [lia|intuition lia].
  - destruct (Z.ltb_spec b b'); apply K; auto; eapply fits_wider; try eassumption; lia.
Qed.

(** When static_cast is applied to a value which does not fit. *)
Definition wraps (output input : ity) (x : Z) : bool :=
  match output, input with
  | TInt b' false, TInt b true => ((b <? b') && (x <? 0))%bool
  | TBool, TInt b false => ((b =? 1) && (1 <? x))%bool
  | _, _ => false
  end.
Lemma fits_dec t x : {fits t x} + {~ fits t x}.
Proof.
  unfold fits. destruct (Z_le_dec (tmin t) x); [|right; lia]. destruct (Z_le_dec x (tmax t)); [left|right]; lia.
Qed.
Lemma tmax_fits t : wf t -> fits t (tmax t).
Proof.
  unfold wf, fits, tmin, tmax, bits. destruct t as [b [|]|]; cbn [is_signed sizeof]; intros W; try lia;
    pose proof (@pow_pos (8 * b - 1) ltac:(lia)); pose proof (@pow_pos (8 * b) ltac:(lia)); lia.
Qed.
Lemma tmin_fits t : wf t -> fits t (tmin t).
Proof.
  unfold wf, fits, tmin, tmax, bits. destruct t as [b [|]|]; cbn [is_signed sizeof]; intros W; try lia;
    pose proof (@pow_pos (8 * b - 1) ltac:(lia)); pose proof (@pow_pos (8 * b) ltac:(lia)); lia.
Qed.
Lemma tmax_nonneg t : wf t -> 0 <= tmax t.
Proof. intros W. destruct (tmax_fits W) as [A _]. unfold tmin, tmax, bits, wf in *. destruct t as [b [|]|]; cbn [is_signed sizeof] in *; try lia; pose proof (@pow_pos (8 * b - 1) ltac:(lia)); lia. Qed.
Lemma easy_fits t u x : wf t -> wf u -> canEasilyConvert t u = true -> fits t x -> wraps u t x = false -> fits u x.
Proof.
  unfold canEasilyConvert, sameSignedness, wf. intros Wt Wu E F Nw. apply orb_true_iff in E.
  destruct t as [b s|], u as [b' s'|]; cbn [sizeof is_signed wraps] in *.
  - destruct E as [E|E].
    + apply Z.ltb_lt in E. destruct s.
      * destruct s'; [eapply fits_wider; [|exact F]; lia|]. rewrite (proj2 (Z.ltb_lt _ _) E) in Nw. cbn in Nw. apply Z.ltb_ge in Nw. eapply fits_nonneg with (b := b); eauto.
      * eapply fits_nonneg with (b := b); eauto. apply range_int in F; lia.
    + apply andb_true_iff in E. destruct E as [E1 E2]. apply Z.eqb_eq in E1. apply eqb_prop in E2. subst. exact F.
  - destruct E as [E|E]; [apply Z.ltb_lt in E; lia|]. apply andb_true_iff in E. destruct E as [E1 E2]. apply Z.eqb_eq in E1. subst b. destruct s; [discriminate|]. cbn in Nw. apply Z.ltb_ge in Nw.
    apply range_int in F; [|lia]. apply range_bool. lia.
  - apply (proj1 (range_bool x)) in F. apply range_int; [lia|]. pose proof (@pow_le 8 (8 * b') ltac:(lia)) as Q. change (2 ^ 8) with 256 in Q. pose proof (@pow_le 7 (8 * b' - 1) ltac:(lia)) as Q'. change (2 ^ 7) with 128 in Q'. destruct s'; lia.
  - exact F.
Qed.
Theorem conversion_ok output input x : wf output -> wf input -> compiles output input = true -> fits input x ->
  integerConversion output input x =
    if fits_dec output x then Ok x else if wraps output input x then Ok (static_cast output x) else Abort.
Proof.
  intros Wo Wi Cp F. unfold integerConversion. destruct (canEasilyConvert input output) eqn:Ez.
  - destruct (wraps output input x) eqn:Ew.
    + destruct (fits_dec output x) as [K|K]; [rewrite cast_id by auto; reflexivity|reflexivity].
    + pose proof (easy_fits Wi Wo Ez F Ew) as K. destruct (fits_dec output x); [|contradiction]. rewrite cast_id by auto. reflexivity.
  - assert (Nw : wraps output input x = false).
    { unfold canEasilyConvert in Ez. apply orb_false_iff in Ez. destruct Ez as [E1 E2]. destruct output as [b' [|]|], input as [b [|]|]; cbn [wraps sizeof is_signed sameSignedness] in *; auto.
      - rewrite E1. reflexivity.
      - unfold sameSignedness in E2. cbn in E2. rewrite andb_true_r in E2. rewrite E2. reflexivity. }
    rewrite Nw. unfold canEasilyConvert in Ez. apply orb_false_iff in Ez. destruct Ez as [E1 E2]. apply Z.ltb_ge in E1.
    pose proof (tmax_fits Wo) as Fm. pose proof (tmax_nonneg Wo) as Nm.
    destruct (is_signed input) eqn:Si; cbn [negb].
    + destruct output as [b' s'|].
      2:{ exfalso. unfold compiles, canEasilyConvert, sameSignedness in Cp. rewrite Si in Cp. cbn [is_signed sizeof negb orb] in Cp.
          unfold wf in Wi. destruct (Z.ltb_spec (sizeof input) 1); [lia|]. cbn in Cp. rewrite andb_false_r in Cp. discriminate. }
      destruct input as [b [|]|]; try discriminate. cbn [is_signed sizeof make_signed make_unsigned] in *. unfold wf in *. cbn [sizeof] in *.
      assert (P2 : forall d : Z, is_signed (promote (TInt d true)) = true) by (intros d; unfold promote; cbn [sizeof]; destruct (d <? 4); reflexivity).
      assert (F2 : fits (TInt b' true) (tmin (TInt b' s'))).
      { apply range_int; [lia|]. pose proof (@pow_pos (8 * b' - 1) ltac:(lia)). destruct s'; unfold tmin, bits; cbn [is_signed sizeof]; lia. }
      destruct (@cmp_same (TInt b true) (TInt b' true) x (tmin (TInt b' s'))) as [C1 C2]; auto; try (unfold wf; cbn; lia).
      { right. left. rewrite !P2. reflexivity. }
      { right. left. rewrite !P2. reflexivity. }
      change (make_signed (TInt b' s')) with (TInt b' true). change (make_unsigned (TInt b true)) with (TInt b false). unfold lt. rewrite C1, C2. destruct (Z.ltb_spec x (tmin (TInt b' s'))) as [Lo|Lo]; cbn [error_if bind].
      { destruct (fits_dec (TInt b' s') x) as [[K _]|]; [lia|reflexivity]. }
      destruct s'; cbn [is_signed] in *.
      * (* both signed *)
        assert (E : static_cast (TInt b true) x = x) by (apply cast_id; auto). rewrite E. unfold gt.
        destruct (@cmp_same (TInt b true) (TInt b' true) x (tmax (TInt b' true))) as [D1 D2]; auto.
        { right. left. rewrite !P2. reflexivity. }
        rewrite D1, D2. destruct (Z.ltb_spec (tmax (TInt b' true)) x) as [Hi|Hi]; cbn [error_if bind].
        -- destruct (fits_dec (TInt b' true) x) as [[_ K]|]; [lia|reflexivity].
        -- assert (K : fits (TInt b' true) x) by (split; auto). destruct (fits_dec (TInt b' true) x); [|contradiction]. rewrite cast_id by auto. reflexivity.
      * (* signed to unsigned *)
        assert (N : 0 <= x) by (unfold tmin in Lo; cbn in Lo; exact Lo).
        assert (Fu : fits (TInt b false) x) by (eapply fits_nonneg; [|exact F|exact N|]; [lia|right; intuition lia]).
        assert (E : static_cast (TInt b false) x = x) by (apply cast_id; auto). rewrite E. unfold gt.
        destruct (@cmp_same (TInt b false) (TInt b' false) x (tmax (TInt b' false))) as [D1 D2]; auto.
        rewrite D1, D2. destruct (Z.ltb_spec (tmax (TInt b' false)) x) as [Hi|Hi]; cbn [error_if bind].
        -- destruct (fits_dec (TInt b' false) x) as [[_ K]|]; [lia|reflexivity].
        -- assert (K : fits (TInt b' false) x) by (split; auto). destruct (fits_dec (TInt b' false) x); [|contradiction]. rewrite cast_id by auto. reflexivity.
    + assert (N : 0 <= x) by (unfold fits, tmin in F; rewrite Si in F; lia). unfold gt.
      destruct (@cmp_same input output x (tmax output)) as [D1 D2]; auto. rewrite D1, D2.
      destruct (Z.ltb_spec (tmax output) x) as [Hi|Hi]; cbn [error_if bind].
      * destruct (fits_dec output x) as [[_ K]|]; [lia|reflexivity].
      * assert (K : fits output x). { split; auto. destruct (tmin_fits Wo). unfold tmin in *. destruct (is_signed output); [|lia]. pose proof (@pow_pos (bits output - 1) ltac:(unfold bits, wf in *; lia)). lia. }
        destruct (fits_dec output x); [|contradiction]. rewrite cast_id by auto. reflexivity.
Qed.
