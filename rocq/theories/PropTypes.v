(** Properties of integerConversion, convertSize and isValidPermutation (C41, C42, C51). *)
From Coq Require Import List Arith ZArith Lia Bool Permutation.
From Verif Require Import Base BaseProofs Indexing IndexingSpec Integers TypeManip.
From Verif Require IntegersProofs.
Import ListNotations.
Set Implicit Arguments.

(** The values of an integral type. *)
Definition holds_value (t : ity) (x : Z) : Prop :=
  match t with
  | TInt b true => (- 2 ^ (8 * b - 1) <= x < 2 ^ (8 * b - 1))%Z
  | TInt b false => (0 <= x < 2 ^ (8 * b))%Z
  | TBool => (0 <= x <= 1)%Z
  end.
Definition real_type (t : ity) : Prop := match t with TInt b _ => (1 <= b)%Z | TBool => True end.
(** The two cases in which a value which does not fit is returned changed: negative to a wider unsigned type, and
    unsigned char to bool. *)
Definition lossy (output input : ity) (x : Z) : Prop :=
  (exists b b', input = TInt b true /\ output = TInt b' false /\ (b < b')%Z /\ (x < 0)%Z) \/
  (input = TInt 1 false /\ output = TBool /\ (1 < x)%Z).

Lemma holds_fits t x : real_type t -> holds_value t x <-> IntegersProofs.fits t x.
Proof.
  destruct t as [b s|]; cbn [holds_value real_type]; intros H; [|symmetry; apply IntegersProofs.range_bool]. symmetry. etransitivity; [apply IntegersProofs.range_int; exact H|]. destruct s; reflexivity.
Qed.
Lemma lossy_wraps output input x : IntegersProofs.wraps output input x = true <-> lossy output input x.
Proof.
  unfold lossy. split.
  - destruct output as [b' [|]|], input as [b [|]|]; cbn [IntegersProofs.wraps]; try discriminate; intros H; apply andb_true_iff in H; destruct H as [H1 H2].
    + left. exists b, b'. apply Z.ltb_lt in H1, H2. auto.
    + right. apply Z.eqb_eq in H1. apply Z.ltb_lt in H2. subst. auto.
  - intros [(b & b' & -> & -> & H1 & H2)|(-> & -> & H)]; cbn [IntegersProofs.wraps]; apply andb_true_iff; split; try apply Z.ltb_lt; auto.
Qed.

(** C41: for all types and values: a value which fits is returned; else the call aborts, but in the two cases above. *)
Theorem C41_integerConversion : forall output input x, real_type output -> real_type input -> compiles output input = true -> holds_value input x ->
  (holds_value output x -> integerConversion output input x = Ok x) /\
  (~ holds_value output x -> ~ lossy output input x -> integerConversion output input x = Abort).
Proof.
  intros o i x Ro Ri C H. assert (Wo : IntegersProofs.wf o) by (destruct o; cbn in *; unfold IntegersProofs.wf; cbn; lia).
  assert (Wi : IntegersProofs.wf i) by (destruct i; cbn in *; unfold IntegersProofs.wf; cbn; lia).
  apply (@holds_fits i x Ri) in H. rewrite (@holds_fits o x Ro). rewrite (IntegersProofs.conversion_ok Wo Wi C H).
  destruct (IntegersProofs.fits_dec o x) as [F|F]; [tauto|]. split; [tauto|]. intros _ L. rewrite <- lossy_wraps in L. destruct (IntegersProofs.wraps o i x); congruence.
Qed.
Print Assumptions C41_integerConversion.
(** In the two cases: a negative value comes back modulo 2 ^ width, a byte as true. *)
Theorem C41_exceptions : forall output input x, real_type output -> real_type input -> holds_value input x -> lossy output input x ->
  ~ holds_value output x /\
  integerConversion output input x = Ok (match output with TInt b' _ => x + 2 ^ (8 * b') | TBool => 1 end)%Z.
Proof.
  intros o i x Ro Ri H L. split.
  - destruct L as [(b & b' & -> & -> & H1 & H2)|(-> & -> & L)]; cbn; lia.
  - destruct L as [(b & b' & -> & -> & H1 & H2)|(-> & -> & L)].
    + unfold integerConversion, canEasilyConvert. cbn [sizeof]. rewrite (proj2 (Z.ltb_lt _ _) H1). cbn [orb]. f_equal.
      unfold static_cast, bits. cbn [sizeof andb]. cbn [real_type holds_value] in Ro, Ri, H.
      assert (Le : (2 ^ (8 * b - 1) <= 2 ^ (8 * b'))%Z) by (apply Z.pow_le_mono_r; lia).
      symmetry. apply Z.mod_unique with (q := (-1)%Z); lia.
    + cbv [integerConversion canEasilyConvert sameSignedness sizeof is_signed eqb static_cast Z.ltb Z.compare Pos.compare Pos.compare_cont orb andb Z.eqb Pos.eqb].
      destruct x; try lia; reflexivity.
Qed.
Print Assumptions C41_exceptions.
(** The only conversions that do not compile are those from a signed type to bool. *)
Theorem C41_compiles : forall output input, real_type output -> real_type input ->
  compiles output input = false <-> output = TBool /\ exists b, input = TInt b true.
Proof.
  intros o i Ro Ri. unfold compiles, canEasilyConvert, sameSignedness. destruct o as [bo so|].
  - rewrite orb_true_r. split; [discriminate|intros [H _]; discriminate H].
  - rewrite orb_false_r. destruct i as [b [|]|]; cbn [is_signed sizeof negb].
    + cbn [eqb]. rewrite andb_false_r, !orb_false_r. cbn in Ri. split; [eauto|]. intros _. apply Z.ltb_ge. lia.
    + rewrite orb_true_r. split; [discriminate|intros (_ & x & H); discriminate H].
    + rewrite orb_true_r. split; [discriminate|intros (_ & x & H); discriminate H].
Qed.
Print Assumptions C41_compiles.
Example C41_case : integerConversion (TInt 4 true) (TInt 8 true) 2147483647 = Ok 2147483647%Z /\
  integerConversion (TInt 4 true) (TInt 8 true) 2147483648 = Abort /\ integerConversion (TInt 4 false) (TInt 4 true) (-1) = Abort /\
  integerConversion (TInt 1 true) (TInt 1 false) 200 = Abort /\ integerConversion (TInt 8 false) (TInt 4 true) (-1) = Ok 18446744073709551615%Z /\
  integerConversion TBool (TInt 1 false) 2 = Ok 1%Z /\ integerConversion TBool (TInt 2 false) 2 = Abort.
Proof. vm_compute. repeat split. Qed.

(** C51 *)
Theorem C51_isValidPermutation : forall perm : list Z,
  isValidPermutation perm = true <-> Permutation perm (map Z.of_nat (seq 0 (length perm))).
Proof.
  intros perm. assert (Ct : forall x s, contains x s = true <-> In x s).
  { intros x s. induction s as [|i [|j s] IH]; [cbn; split; [discriminate|tauto]|cbn; rewrite Z.eqb_eq; intuition|].
    change (contains x (i :: j :: s)) with ((x =? i)%Z || contains x (j :: s))%bool. rewrite orb_true_iff, IH, Z.eqb_eq. cbn. intuition. }
  unfold isValidPermutation. rewrite forallb_forall. split.
  - intros H. symmetry. apply NoDup_Permutation_bis.
    + apply FinFun.Injective_map_NoDup; [intros a b E; lia|apply seq_NoDup].
    + rewrite map_length, seq_length. lia.
    + intros y Hy. apply in_map_iff in Hy. destruct Hy as (i & <- & Hi). apply Ct. apply H. exact Hi.
  - intros P i Hi. apply Ct. apply (Permutation_in _ (Permutation_sym P)). apply in_map. exact Hi.
Qed.
Print Assumptions C51_isValidPermutation.
Example C51_case : isValidPermutation [2; 0; 1]%Z = true /\ isValidPermutation [0; 0; 1]%Z = false /\ isValidPermutation [1; 2; 3]%Z = false.
Proof. vm_compute. auto. Qed.

(** ** C42 *)
Section Convert.
Local Open Scope Z_scope.
Definition coord (usd : Z) (idx : list Z) : Z := if (usd <? 0) then 0 else nth (Z.to_nat usd) idx 0.
Lemma coord_step usd i idx : coord usd (i :: idx) = if (usd =? 0) then i else coord (usd - 1) idx.
Proof.
  unfold coord. destruct (Z.eqb_spec usd 0) as [->|]; [reflexivity|]. destruct (Z.ltb_spec usd 0).
  - destruct (Z.ltb_spec (usd - 1) 0); [reflexivity|lia].
  - destruct (Z.ltb_spec (usd - 1) 0); [lia|]. replace (Z.to_nat usd) with (S (Z.to_nat (usd - 1))) by lia. reflexivity.
Qed.
Lemma gl_cons usd s ss i ii : length ss = length ii -> getLinearIndex usd (s :: ss) (i :: ii) = condMultiply (usd =? 0) i s + getLinearIndex (usd - 1) ss ii.
Proof. destruct ss as [|s' ss], ii as [|i' ii]; intros E; try discriminate; cbn [getLinearIndex]; [rewrite Z.add_0_r|]; reflexivity. Qed.
(** Strides related by a factor, but for the unit stride dimension. *)
Fixpoint scaled (k usd : Z) (ss ss' : list nat) : Prop :=
  match ss, ss' with
  | s :: ss, s' :: ss' => (usd <> 0 -> Z.of_nat s' = k * Z.of_nat s) /\ scaled k (usd - 1) ss ss'
  | [], [] => True
  | _, _ => False
  end.
Lemma gl_scaled k : forall ss ss' usd ii, scaled k usd ss ss' -> length ss = length ii ->
  getLinearIndex usd ss' ii + (k - 1) * coord usd ii = k * getLinearIndex usd ss ii.
Proof.
  induction ss as [|s ss IH]; intros [|s' ss'] usd [|i ii] H E; try discriminate; try contradiction.
  - cbn. unfold coord. destruct (usd <? 0); [lia|]. destruct (Z.to_nat usd); cbn; lia.
  - destruct H as [Hs H]. injection E as E. assert (E' : length ss' = length ii).
    { rewrite <- E. clear -H. revert ss' usd H. induction ss as [|a ss IH]; intros [|b ss'] usd H; cbn in *; try contradiction; auto. destruct H as [_ H]. apply IH in H. lia. }
    rewrite !gl_cons, coord_step by auto. specialize (IH ss' (usd - 1) ii H E). unfold condMultiply. destruct (Z.eqb_spec usd 0) as [->|N].
    + change (0 - 1) with (-1) in *. unfold coord in IH. cbn in IH. lia.
    + rewrite (Hs N). lia.
Qed.
Lemma gl_move : forall ss usd ii j, length ss = length ii -> (usd < length ss)%nat ->
  getLinearIndex (Z.of_nat usd) ss (upd ii usd j) = getLinearIndex (Z.of_nat usd) ss ii - coord (Z.of_nat usd) ii + j.
Proof.
  induction ss as [|s ss IH]; intros usd [|i ii] j E L; try discriminate; cbn [length] in *; [lia|]. injection E as E. destruct usd as [|u].
  - cbn [upd]. rewrite !gl_cons by auto. unfold coord, condMultiply. cbn. lia.
  - cbn [upd]. rewrite !gl_cons, coord_step by (rewrite ?upd_length; auto). rewrite (proj2 (Z.eqb_neq _ _)) by lia.
    replace (Z.of_nat (S u) - 1) with (Z.of_nat u) by lia. rewrite IH by (auto; lia). lia.
Qed.
End Convert.

(** [k] elements of the smaller type make one of the larger; the coordinate in the unit stride dimension is [j]. *)
Definition at_coord (idx : list Z) (usd : nat) (j : Z) : list Z := upd idx usd j.
Lemma convert_down szT szU n k : 0 < szT -> szU = k * szT -> 0 < k -> convertSize szT szU n = Ok (n * k).
Proof.
  intros P E K. unfold convertSize. rewrite (proj2 (Nat.leb_le szT szU)) by nia. f_equal. subst szU. rewrite Nat.mul_assoc. apply Nat.div_mul. lia.
Qed.
Lemma convert_up szT szU n k : 0 < szU -> szT = k * szU -> 1 < k -> convertSize szT szU n = if n mod k =? 0 then Ok (n / k) else Abort.
Proof.
  intros P E K. unfold convertSize. rewrite (proj2 (Nat.leb_gt szT szU)) by nia. replace (szT / szU) with k by (rewrite E, Nat.div_mul by lia; reflexivity).
  destruct (n mod k =? 0); reflexivity.
Qed.
Lemma upd_same_length {X} (l : list X) i x : length (upd l i x) = length l.
Proof. apply upd_length. Qed.
Lemma others_down szT szU k usd : 0 < szT -> szU = k * szT -> 0 < k -> forall ss i,
  exists ss', convert_others szT szU usd i ss = Ok ss' /\ length ss' = length ss /\ scaled (Z.of_nat k) (Z.of_nat usd - Z.of_nat i) ss ss'.
Proof.
  intros P E K. induction ss as [|s ss IH]; intros i; cbn [convert_others]; [exists []; cbn; auto|].
  destruct (IH (i + 1)) as (ss' & Ec & El & Es). destruct (Nat.eqb_spec i usd) as [->|Ne].
  - cbn [bind]. rewrite Ec. cbn [bind]. exists (s :: ss'). split; [reflexivity|]. split; [cbn; lia|]. cbn [scaled]. split; [lia|].
    replace (Z.of_nat usd - Z.of_nat usd - 1)%Z with (Z.of_nat usd - Z.of_nat (usd + 1))%Z by lia. exact Es.
  - rewrite (convert_down s P E K). cbn [bind]. rewrite Ec. cbn [bind]. exists (s * k :: ss'). split; [reflexivity|]. split; [cbn; lia|]. cbn [scaled]. split; [lia|].
    replace (Z.of_nat usd - Z.of_nat i - 1)%Z with (Z.of_nat usd - Z.of_nat (i + 1))%Z by lia. exact Es.
Qed.
Lemma scaled_others szT szU k usd : 0 < szU -> szT = k * szU -> 1 < k -> forall ss i,
  match convert_others szT szU usd i ss with
  | Ok ss' => length ss' = length ss /\ scaled (Z.of_nat k) (Z.of_nat usd - Z.of_nat i) ss' ss /\ (forall j s, nth_error ss j = Some s -> i + j <> usd -> s mod k = 0)
  | Abort => exists j s, nth_error ss j = Some s /\ i + j <> usd /\ s mod k <> 0
  | Fault _ => False
  end.
Proof.
  intros P E K. induction ss as [|s ss IH]; intros i; cbn [convert_others]; [cbn; repeat split; auto; intros [|]; discriminate|].
  specialize (IH (i + 1)). destruct (Nat.eqb_spec i usd) as [->|Ne].
  - cbn [bind]. destruct (convert_others szT szU usd (usd + 1) ss) as [ss'| |]; cbn [bind]; [| |exact IH].
    + destruct IH as (El & Es & Hj). split; [cbn; lia|]. split.
      * cbn [scaled]. split; [lia|]. replace (Z.of_nat usd - Z.of_nat usd - 1)%Z with (Z.of_nat usd - Z.of_nat (usd + 1))%Z by lia. exact Es.
      * intros [|j] x N D; [lia|]. apply (Hj j x N). lia.
    + destruct IH as (j & x & N & D & M). exists (S j), x. split; [exact N|]. split; [lia|exact M].
  - rewrite (convert_up s P E K). destruct (Nat.eqb_spec (s mod k) 0) as [Z0|Z0]; cbn [bind].
    + destruct (convert_others szT szU usd (i + 1) ss) as [ss'| |]; cbn [bind]; [| |exact IH].
      * destruct IH as (El & Es & Hj). split; [cbn; lia|]. split.
        -- cbn [scaled]. split.
           ++ intros _. pose proof (Nat.div_mod s k ltac:(lia)) as Dm. rewrite Z0, Nat.add_0_r in Dm. rewrite Dm at 1. lia.
           ++ replace (Z.of_nat usd - Z.of_nat i - 1)%Z with (Z.of_nat usd - Z.of_nat (i + 1))%Z by lia. exact Es.
        -- intros [|j] x N D; [cbn in N; injection N as <-; exact Z0|]. apply (Hj j x N). lia.
      * destruct IH as (j & x & N & D & M). exists (S j), x. split; [exact N|]. split; [lia|exact M].
    + exists 0, s. split; [reflexivity|]. split; [lia|exact Z0].
Qed.
Lemma valid_parts dims usd d : nth_error dims usd = Some d ->
  (forall idx dn, valid_index (upd dims usd dn) idx <-> exists i, nth_error idx usd = Some i /\ (0 <= i < Z.of_nat dn)%Z /\ valid_index (upd dims usd 1) (upd idx usd 0%Z)).
Proof.
  unfold valid_index. revert usd. induction dims as [|e dims IH]; intros [|u] N idx dn; cbn in N; try discriminate.
  - cbn [upd]. split.
    + intros H. inversion H as [|i z ii dd Hi Hr]; subst. exists i. cbn. split; [reflexivity|]. split; [exact Hi|]. constructor; [lia|exact Hr].
    + intros (i & Ni & Hi & H). destruct idx as [|i' idx]; [discriminate|]. cbn in *. injection Ni as ->. inversion H; subst. constructor; auto.
  - cbn [upd]. split.
    + intros H. inversion H as [|i z ii dd Hi Hr]; subst. apply (IH u N ii dn) in Hr. destruct Hr as (i0 & N0 & H0 & H1). exists i0. cbn. split; [exact N0|]. split; [exact H0|]. constructor; auto.
    + intros (i & Ni & Hi & H). destruct idx as [|i' idx]; [destruct u; discriminate|]. cbn in *. inversion H; subst. constructor; auto. apply (IH u N idx dn). exists i. auto.
Qed.
Lemma upd_upd {X} (l : list X) i x y : upd (upd l i x) i y = upd l i y.
Proof. revert i. induction l as [|z l IH]; intros [|i]; cbn; auto. f_equal. auto. Qed.
Lemma upd_self {X} (l : list X) i x : nth_error l i = Some x -> upd l i x = l.
Proof. revert i. induction l as [|z l IH]; intros [|i] H; cbn in *; try discriminate; [congruence|]. f_equal. auto. Qed.
Lemma valid_self dims usd d idx : nth_error dims usd = Some d ->
  valid_index dims idx <-> exists i, nth_error idx usd = Some i /\ (0 <= i < Z.of_nat d)%Z /\ valid_index (upd dims usd 1) (upd idx usd 0%Z).
Proof. intros N. pose proof (valid_parts _ _ N idx d) as V. rewrite (upd_self _ _ N) in V. exact V. Qed.
Lemma nth_upd_same {X} (l : list X) i x : i < length l -> nth_error (upd l i x) i = Some x.
Proof. revert i. induction l as [|z l IH]; intros [|i] H; cbn in *; try lia; auto. apply IH. lia. Qed.
Lemma coord_nth usd idx i : nth_error idx usd = Some i -> coord (Z.of_nat usd) idx = i.
Proof. intros N. unfold coord. rewrite (proj2 (Z.ltb_ge _ _)) by lia. rewrite Nat2Z.id. apply nth_error_nth. exact N. Qed.
Lemma aget_err {X} (l : list X) i x : nth_error l i = Some x -> aget l i = Ok x.
Proof. unfold aget. intros ->. reflexivity. Qed.

(** C42, to a type not larger: never aborts; the element with unit stride coordinate [k * j + r], [r < k], is the
    [r]-th part of the source's element with coordinate [j], and the valid indices are those parts of valid elements. *)
Theorem C42_smaller : forall szT szU k usd v d, 0 < szT -> 0 < k -> szU = k * szT ->
  nth_error (v_dims v) usd = Some d -> length (v_strides v) = length (v_dims v) ->
  exists v', reinterpret szT szU usd v = Ok v' /\ v_cap v' * szT = v_cap v * szU /\
    forall idx j r, nth_error idx usd = Some (Z.of_nat k * j + r)%Z -> (0 <= r < Z.of_nat k)%Z -> length idx = length (v_dims v) ->
      (valid_index (v_dims v') idx <-> valid_index (v_dims v) (at_coord idx usd j)) /\
      byte_of szT usd v' idx = (byte_of szU usd v (at_coord idx usd j) + r * Z.of_nat szT)%Z.
Proof.
  intros szT szU k usd v d P K E Nd Ls. unfold reinterpret. rewrite (convert_down _ P E K). cbn [bind]. rewrite (aget_err _ _ Nd). cbn [bind].
  rewrite (convert_down _ P E K). cbn [bind]. destruct (@others_down szT szU k usd P E K (v_strides v) 0) as (ss' & -> & El & Es). cbn [bind].
  eexists. split; [reflexivity|]. cbn [v_cap v_dims v_strides]. split; [subst szU; nia|]. intros idx j r Ni Hr Li. unfold at_coord. split.
  - rewrite (valid_parts _ _ Nd _ (d * k)). rewrite (@valid_self _ _ _ (upd idx usd j) Nd). rewrite upd_upd.
    split; intros (i & Hi & Hb & Hv).
    + exists j. rewrite nth_upd_same by (rewrite Li; apply nth_error_Some; congruence). split; [reflexivity|]. split; [|exact Hv]. rewrite Ni in Hi. injection Hi as <-. nia.
    + rewrite nth_upd_same in Hi by (rewrite Li; apply nth_error_Some; congruence). injection Hi as <-. exists (Z.of_nat k * j + r)%Z. split; [exact Ni|]. split; [nia|exact Hv].
  - unfold byte_of. cbn [v_strides]. replace (Z.of_nat usd - Z.of_nat 0)%Z with (Z.of_nat usd) in Es by lia.
    assert (L2 : length (v_strides v) = length idx) by lia. pose proof (@gl_scaled _ _ _ _ _ Es L2) as G.
    rewrite gl_move by (auto; rewrite Ls; apply nth_error_Some; congruence). rewrite (coord_nth _ _ Ni) in *. subst szU. nia.
Qed.
Print Assumptions C42_smaller.

(** C42, to a larger type: aborts exactly when the capacity, the extent of the unit stride dimension or one of the other
    strides is not a multiple of [k]; else the element with unit stride coordinate [j] consists of the [k] source elements
    from coordinate [k * j] on, and it is valid exactly if all those are. *)
Theorem C42_larger : forall szT szU k usd v d, 0 < szU -> 1 < k -> szT = k * szU ->
  nth_error (v_dims v) usd = Some d -> length (v_strides v) = length (v_dims v) ->
  let divisible := v_cap v mod k = 0 /\ d mod k = 0 /\ forall i s, nth_error (v_strides v) i = Some s -> i <> usd -> s mod k = 0 in
  (~ divisible -> reinterpret szT szU usd v = Abort) /\
  (divisible -> exists v', reinterpret szT szU usd v = Ok v' /\ v_cap v' * szT = v_cap v * szU /\
    forall idx j, nth_error idx usd = Some j -> length idx = length (v_dims v) ->
      (valid_index (v_dims v') idx <-> forall r, (0 <= r < Z.of_nat k)%Z -> valid_index (v_dims v) (at_coord idx usd (Z.of_nat k * j + r))) /\
      byte_of szT usd v' idx = byte_of szU usd v (at_coord idx usd (Z.of_nat k * j))).
Proof.
  intros szT szU k usd v d P K E Nd Ls divisible. unfold divisible. unfold reinterpret. rewrite (convert_up _ P E K).
  destruct (Nat.eqb_spec (v_cap v mod k) 0) as [Z1|Z1]; cbn [bind]; [|split; [reflexivity|tauto]]. rewrite (aget_err _ _ Nd). cbn [bind]. rewrite (convert_up _ P E K).
  destruct (Nat.eqb_spec (d mod k) 0) as [Z2|Z2]; cbn [bind]; [|split; [reflexivity|tauto]].
  pose proof (@scaled_others szT szU k usd P E K (v_strides v) 0) as Hs. destruct (convert_others szT szU usd 0 (v_strides v)) as [ss'| |]; cbn [bind]; [| |contradiction].
  - destruct Hs as (El & Es & Hj). split; [intros N; exfalso; apply N; auto|]. intros _. eexists. split; [reflexivity|]. cbn [v_cap v_dims v_strides].
    pose proof (Nat.div_mod (v_cap v) k ltac:(lia)) as D1. pose proof (Nat.div_mod d k ltac:(lia)) as D2. split; [subst szT; nia|]. intros idx j Ni Li. unfold at_coord. split.
    + rewrite (valid_parts _ _ Nd _ (d / k)). split.
      * intros (i & Hi & Hb & Hv) r Hr. rewrite Ni in Hi. injection Hi as <-. apply (@valid_self _ _ _ _ Nd). rewrite upd_upd.
        exists (Z.of_nat k * j + r)%Z. rewrite nth_upd_same by (rewrite Li; apply nth_error_Some; congruence). split; [reflexivity|]. split; [nia|exact Hv].
      * intros H. assert (H0 := H 0%Z ltac:(lia)). assert (H1 := H (Z.of_nat k - 1)%Z ltac:(lia)).
        apply (@valid_self _ _ _ _ Nd) in H0, H1. rewrite upd_upd in *.
        destruct H0 as (i0 & N0 & B0 & V0). destruct H1 as (i1 & N1 & B1 & _). rewrite nth_upd_same in N0, N1 by (rewrite Li; apply nth_error_Some; congruence).
        injection N0 as <-. injection N1 as <-. exists j. split; [exact Ni|]. split; [nia|exact V0].
    + unfold byte_of. cbn [v_strides]. replace (Z.of_nat usd - Z.of_nat 0)%Z with (Z.of_nat usd) in Es by lia.
      assert (L2 : length ss' = length idx) by lia. pose proof (@gl_scaled _ _ _ _ _ Es L2) as G.
      rewrite gl_move by (try lia; rewrite Ls; apply nth_error_Some; congruence). rewrite (coord_nth _ _ Ni) in *. subst szT. nia.
  - destruct Hs as (j & s & N & D & M). split; [reflexivity|]. intros (_ & _ & H). exfalso. apply M. apply (H j s N). exact D.
Qed.
Print Assumptions C42_larger.
Example C42_case : reinterpret 8 4 1 (mkShape [5; 10] [10; 1] 50) = Ok (mkShape [5; 5] [5; 1] 25) /\
  reinterpret 4 8 1 (mkShape [5; 5] [5; 1] 25) = Ok (mkShape [5; 10] [10; 1] 50) /\ reinterpret 8 4 1 (mkShape [5; 9] [9; 1] 45) = Abort.
Proof. vm_compute. auto. Qed.
