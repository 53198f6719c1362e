(** Slices: chained indexing, contiguity, bounds checks, traversal. *)
From Coq Require Import List Arith ZArith Lia Bool Permutation Sorted.
From Verif Require Import Base BaseProofs Indexing IndexingSpec IndexingProofs.
Import ListNotations.
Set Implicit Arguments.
Unset Strict Implicit.

Lemma valid_len dims idx : valid_index dims idx -> length idx = length dims.
Proof. intros V. apply (Forall2_len V). Qed.

Lemma invalidIndices_spec dims idx : length idx = length dims ->
  (invalidIndices dims idx = false <-> valid_index dims idx).
Proof.
  revert idx; induction dims as [|d dims IH]; intros [|i idx] L; try discriminate; simpl.
  - split; auto. constructor.
  - injection L as L. rewrite !orb_false_iff, IH by auto. split.
    + intros [[A B] C]. constructor; auto. lia.
    + intros H. inversion H; subst. repeat split; auto; lia.
Qed.

(** Bounds-checked operator() *)
Lemma slice_call_checked s idx : length idx = length (s_dims s) ->
  (valid_index (s_dims s) idx ->
   slice_call true s idx = Ok (s_off s + getLinearIndex (s_usd s) (s_strides s) idx)%Z) /\
  (~ valid_index (s_dims s) idx -> slice_call true s idx = Abort).
Proof.
  intros L. pose proof (invalidIndices_spec L) as E. unfold slice_call, linearIndex, checkIndices, error_if.
  destruct (invalidIndices (s_dims s) idx); split; intros H; simpl; auto; exfalso.
  - apply E in H. discriminate.
  - apply H, E. auto.
Qed.

Lemma slice_call_valid chk s idx : valid_index (s_dims s) idx ->
  slice_call chk s idx = Ok (s_off s + getLinearIndex (s_usd s) (s_strides s) idx)%Z.
Proof.
  intros V. destruct chk; [apply slice_call_checked; auto; apply valid_len; auto|reflexivity].
Qed.

(** Slices whose recorded unit stride dimension really has stride one. *)
Definition unit_ok (s : slice) : Prop :=
  length (s_dims s) = length (s_strides s) /\
  forall u, s_usd s = Z.of_nat u -> u < length (s_strides s) -> nth u (s_strides s) 0 = 1.

Lemma unit_ok_whole perm dims : is_permutation perm (length dims) -> 0 < length dims ->
  unit_ok (whole perm dims).
Proof.
  intros P H. split; simpl.
  - rewrite strides_length; auto.
  - intros u E _. apply Nat2Z.inj in E. subst u. apply stride_one; auto.
Qed.

Lemma slice_index_ok chk s i d ds st sts :
  s_dims s = d :: ds -> s_strides s = st :: sts -> unit_ok s -> (0 <= i < Z.of_nat d)%Z ->
  slice_index chk s i = Ok (mkSlice (s_off s + i * Z.of_nat st) ds sts (s_usd s - 1)) /\
  unit_ok (mkSlice (s_off s + i * Z.of_nat st) ds sts (s_usd s - 1)).
Proof.
  intros E1 E2 [U1 U2] B. unfold slice_index. rewrite E1, E2.
  assert ((i <? 0) || (Z.of_nat d <=? i) = false)%Z as -> by lia.
  replace (if chk then error_if false else Ok tt) with (@Ok unit tt) by (destruct chk; auto). simpl.
  rewrite E1, E2 in U1. rewrite E2 in U2. rewrite condMultiply_eq.
  - split; auto. split; simpl in *; [lia|]. intros u Hu Hl. apply (U2 (S u)); simpl; lia.
  - intros Hz. apply (U2 0); simpl; lia.
Qed.

Lemma slice_chain_ok chk : forall pre s, unit_ok s -> length pre <= length (s_dims s) ->
  valid_index (firstn (length pre) (s_dims s)) pre ->
  let k := length pre in
  let s' := mkSlice (s_off s + zdot (firstn k (s_strides s)) pre) (skipn k (s_dims s))
                    (skipn k (s_strides s)) (s_usd s - Z.of_nat k) in
  slice_chain chk s pre = Ok s' /\ unit_ok s'.
Proof.
  induction pre as [|i pre IH]; intros s U L V k s'.
  - subst k s'. simpl. rewrite Z.add_0_r, Z.sub_0_r. destruct s; auto.
  - destruct (s_dims s) as [|d ds] eqn:E1; [simpl in L; lia|].
    destruct (s_strides s) as [|st sts] eqn:E2.
    { destruct U as [U _]. rewrite E1, E2 in U. discriminate. }
    simpl in V. inversion V; subst.
    destruct (@slice_index_ok chk s i d ds st sts) as [A B]; auto.
    assert (L' : length pre <= length ds) by (simpl in L; lia).
    destruct (IH _ B L') as [C D]; auto. simpl in C, D.
    simpl slice_chain. rewrite A. simpl bind. rewrite C.
    subst k s'. simpl length. simpl firstn. simpl skipn. simpl zdot.
    replace (s_usd s - Z.of_nat (S (length pre)))%Z with (s_usd s - 1 - Z.of_nat (length pre))%Z by lia.
    rewrite Z.add_assoc. auto.
Qed.

Lemma zdot_app s1 i1 s2 i2 : length s1 = length i1 ->
  zdot (s1 ++ s2) (i1 ++ i2) = (zdot s1 i1 + zdot s2 i2)%Z.
Proof.
  revert i1; induction s1 as [|s s1 IH]; intros [|i i1] L; try discriminate; auto.
  simpl. rewrite IH by auto. lia.
Qed.

(** Chained operator[] then operator() on the rest equals operator() on everything. *)
Lemma slice_chain_call chk s pre rest : unit_ok s -> valid_index (s_dims s) (pre ++ rest) ->
  exists s', slice_chain chk s pre = Ok s' /\
    s_dims s' = skipn (length pre) (s_dims s) /\
    s_strides s' = skipn (length pre) (s_strides s) /\
    valid_index (s_dims s') rest /\
    slice_call chk s' rest = slice_call chk s (pre ++ rest).
Proof.
  intros U V. unfold valid_index in V. apply Forall2_app_inv_l in V. destruct V as (d1 & d2 & V1 & V2 & E).
  pose proof (Forall2_len V1) as L1. pose proof (Forall2_len V2) as L2.
  destruct (@slice_chain_ok chk pre s) as [A B]; auto.
  { rewrite E. len. }
  { rewrite E. rewrite firstn_app_exact; auto. }
  eexists. split; [exact A|]. simpl. split; auto. split; auto.
  assert (Ed : skipn (length pre) (s_dims s) = d2) by (rewrite E; apply skipn_app_exact; auto).
  rewrite Ed. split; auto.
  rewrite !slice_call_valid; simpl; rewrite ?Ed, ?E; auto; [|apply Forall2_app; auto].
  f_equal.
  destruct U as [U1 U2]. destruct B as [B1 B2]. simpl in B1, B2.
  rewrite (@getLinearIndex_zdot (s_strides s)); auto; [|rewrite <- U1, E; len].
  rewrite getLinearIndex_zdot; auto; [|rewrite <- B1, Ed; auto].
  rewrite <- (firstn_skipn (length pre) (s_strides s)) at 3.
  rewrite zdot_app; [lia|]. rewrite E in U1. len.
Qed.

(** The end of a full chain: the element itself. *)
Lemma slice_chain_full chk s idx : unit_ok s -> valid_index (s_dims s) idx -> 
  exists s', slice_chain chk s idx = Ok s' /\ s_dims s' = [] /\ slice_call chk s idx = Ok (s_off s').
Proof.
  intros U V. destruct (@slice_chain_call chk s idx []) as (s' & A & B & C & D & E); auto.
  { rewrite app_nil_r; auto. }
  exists s'. split; auto. rewrite B. split.
  - apply skipn_all2. rewrite (valid_len V). auto.
  - rewrite app_nil_r in E. rewrite <- E. rewrite slice_call_valid by auto. f_equal.
    rewrite C. rewrite skipn_all2; [simpl; lia|]. rewrite (valid_len V). destruct U as [U _]. lia.
Qed.

(** ** Contiguity *)
Lemma filter_perm {A} (f : A -> bool) l l' : Permutation l l' -> Permutation (filter f l) (filter f l').
Proof.
  induction 1; simpl; auto.
  - destruct (f x); auto.
  - destruct (f x), (f y); auto. apply perm_swap.
  - eapply Permutation_trans; eauto.
Qed.

Lemma filter_seq_ge k n : filter (fun p => k <=? p) (seq 0 n) = seq k (n - k).
Proof.
  destruct (Nat.le_gt_cases k n) as [H|H].
  - replace n with (k + (n - k)) at 1 by lia. rewrite seq_app, filter_app. simpl.
    replace (filter (fun p => k <=? p) (seq 0 k)) with (@nil nat).
    + simpl. clear. assert (G : forall m j, k <= j -> filter (fun p => k <=? p) (seq j m) = seq j m).
      { induction m; intros; simpl; auto. destruct (Nat.leb_spec k j); [|lia]. f_equal. apply IHm; lia. }
      apply G; auto.
    + assert (G : forall m j, j + m <= k -> filter (fun p => k <=? p) (seq j m) = []).
      { induction m; intros; simpl; auto. destruct (Nat.leb_spec k j); [lia|]. apply IHm; lia. }
      rewrite G; auto.
  - replace (n - k) with 0 by lia. simpl.
    assert (G : forall m j, j + m <= k -> filter (fun p => k <=? p) (seq j m) = []).
    { induction m; intros; simpl; auto. destruct (Nat.leb_spec k j); [lia|]. apply IHm; lia. }
    apply G. lia.
Qed.

(** Permutation of the dimensions that remain after slicing away the first k. *)
Definition rest_perm (k : nat) (perm : list nat) : list nat :=
  map (fun p => p - k) (filter (fun p => k <=? p) perm).

Lemma rest_perm_ok k perm n : is_permutation perm n -> is_permutation (rest_perm k perm) (n - k).
Proof.
  intros P. unfold is_permutation, rest_perm.
  eapply Permutation_trans; [apply Permutation_map, filter_perm, P|].
  rewrite filter_seq_ge.
  replace (map (fun p => p - k) (seq k (n - k))) with (seq 0 (n - k)); auto.
  generalize (n - k) as m. intros m.
  assert (G : forall m j, map (fun p => p - k) (seq (k + j) m) = seq j m).
  { clear. induction m; intros; simpl; auto. f_equal; [lia|].
    replace (S (k + j)) with (k + S j) by lia. apply IHm. }
  specialize (G m 0). rewrite Nat.add_0_r in G. auto.
Qed.

Lemma strides_split a p b dims : is_permutation (a ++ p :: b) (length dims) ->
  nth p (calculateStrides (a ++ p :: b) dims) 0 = prod (map (fun q => nth q dims 0) b).
Proof.
  intros P. destruct (perm_facts P) as (E & _).
  pose proof (@strides_spec _ dims (length a) P) as S.
  rewrite nth_middle in S. rewrite S by len. unfold faster_product. f_equal. f_equal.
  change (a ++ p :: b) with (a ++ [p] ++ b). rewrite app_assoc. apply skipn_app_exact. len.
Qed.

Lemma nth_skipn' {A} (l : list A) k i d : nth i (skipn k l) d = nth (k + i) l d.
Proof. revert l; induction k; intros [|x l]; simpl; auto. destruct i; auto. Qed.

Lemma prod_filter (f : nat -> bool) (g : nat -> nat) l :
  prod (map g l) = prod (map g (filter f l)) * prod (map g (filter (fun x => negb (f x)) l)).
Proof.
  induction l as [|x l IH]; auto. simpl filter. unfold prod in *. simpl. rewrite IH.
  destruct (f x); simpl; lia.
Qed.

Lemma prod_pos l : (forall x, In x l -> 1 <= x) -> 1 <= prod l.
Proof.
  induction l as [|x l IH]; intros H; [auto|]. change (prod (x :: l)) with (x * prod l).
  assert (1 <= x) by (apply H; simpl; auto).
  assert (1 <= prod l) by (apply IH; intros; apply H; simpl; auto). nia.
Qed.

Lemma prod_zero l : In 0 l -> prod l = 0.
Proof.
  induction l as [|x l IH]; intros H; [inversion H|]. change (prod (x :: l)) with (x * prod l).
  destruct H as [-> | H]; [lia|]. rewrite IH by auto. lia.
Qed.

Lemma prod_except_spec dims i : i < length dims -> prod_except dims i * nth i dims 0 = prod dims.
Proof.
  intros H. unfold prod_except.
  assert (G : forall l a, fold_left (fun acc j => if j =? i then acc else acc * nth j dims 0) l a
              = a * prod (map (fun j => nth j dims 0) (filter (fun j => negb (j =? i)) l))).
  { induction l as [|j l IH]; intros a; simpl; [unfold prod; simpl; lia|]. rewrite IH.
    destruct (j =? i); simpl; auto. unfold prod. simpl. lia. }
  rewrite G. transitivity (prod (map (fun j => nth j dims 0) (seq 0 (length dims)))); [|rewrite map_nth_seq; auto].
  rewrite (@prod_filter (fun j => negb (j =? i)) (fun j => nth j dims 0) (seq 0 (length dims))).
  replace (filter (fun x => negb (negb (x =? i))) (seq 0 (length dims))) with [i].
  { unfold prod at 3. simpl. lia. }
  rewrite filter_ext with (g := fun x => x =? i) by (intros; apply negb_involutive).
  clear G. assert (G : forall n j, j <= i < j + n -> filter (fun x => x =? i) (seq j n) = [i]).
  { assert (G0 : forall n j, i < j -> filter (fun x => x =? i) (seq j n) = []).
    { induction n; intros; simpl; auto. destruct (Nat.eqb_spec j i); [lia|]. apply IHn; lia. }
    induction n; intros j Hj; simpl; [lia|]. destruct (Nat.eqb_spec j i).
    - subst. f_equal. apply G0. lia.
    - apply IHn. lia. }
  symmetry. apply G. lia.
Qed.

Lemma isContiguous_true s : isContiguous s = true ->
  exists u, s_usd s = Z.of_nat u /\
    ((length (s_dims s) = 1 /\ u = 0) \/
     forall i, i < length (s_dims s) -> i <> u -> nth i (s_strides s) 0 <= prod_except (s_dims s) i).
Proof.
  unfold isContiguous. destruct (Z.ltb_spec (s_usd s) 0); [discriminate|].
  intros H1. exists (Z.to_nat (s_usd s)). split; [lia|].
  destruct ((length (s_dims s) =? 1) && (s_usd s =? 0)%Z)%bool eqn:E.
  - left. apply andb_true_iff in E. destruct E as [E1 E2]. apply Nat.eqb_eq in E1. split; auto. lia.
  - right. intros i Hi Hne.
    assert (G : forall l a, fold_left (fun rval i => if (Z.of_nat i =? s_usd s)%Z then rval
                 else (rval && (nth i (s_strides s) 0 <=? prod_except (s_dims s) i))%bool) l a = true ->
                a = true /\ forall i, In i l -> (Z.of_nat i <> s_usd s) ->
                  nth i (s_strides s) 0 <= prod_except (s_dims s) i).
    { induction l as [|j l IH]; intros a Ha; simpl in *; [split; auto; intros; tauto|].
      apply IH in Ha. destruct Ha as [Ha1 Ha2].
      destruct (Z.eqb_spec (Z.of_nat j) (s_usd s)).
      - split; auto. intros i' [<- | Hi'] Hn; auto. congruence.
      - apply andb_true_iff in Ha1. destruct Ha1 as [Ha1 Ha3]. split; auto.
        intros i' [<- | Hi'] Hn; auto. apply Nat.leb_le; auto. }
    apply G in H1. apply H1; [apply in_seq; lia|lia].
Qed.

(** First element of a list satisfying f. *)
Lemma filter_first {A} (f : A -> bool) l x r : filter f l = x :: r ->
  exists a b, l = a ++ x :: b /\ filter f a = [] /\ filter f b = r /\ f x = true.
Proof.
  induction l as [|y l IH]; simpl; [discriminate|]. destruct (f y) eqn:E; intros H.
  - inversion H; subst. exists [], l; auto.
  - destruct (IH H) as (a & b & -> & A1 & A2 & A3). exists (y :: a), b. simpl. rewrite E. auto.
Qed.

Lemma nodup_split_unique {A} (p : A) : forall a0 b0 a b, NoDup (a0 ++ p :: b0) ->
  a0 ++ p :: b0 = a ++ p :: b -> b0 = b.
Proof.
  induction a0 as [|y a0 IH]; intros b0 a b ND X; destruct a as [|z a]; simpl in *.
  - congruence.
  - exfalso. inversion X as [[X1 X2]]. inversion ND as [|? ? N1 N2]; subst.
    apply N1. apply in_or_app; simpl; auto.
  - exfalso. inversion X as [[X1 X2]]. inversion ND as [|? ? N1 N2]; subst.
    apply N1. apply in_or_app; simpl; auto.
  - inversion X as [[X1 X2]]. inversion ND; subst. eapply IH; eauto.
Qed.

Section Contiguous.
Variables (perm dims : list nat) (k : nat).
Hypothesis P : is_permutation perm (length dims).
Hypothesis Hk : k < length dims.
Hypothesis pos : forall p, p < length dims -> 1 <= nth p dims 0.
Notation D := (fun p => nth p dims 0).
Notation inr := (fun p => k <=? p).
Notation st := (skipn k (calculateStrides perm dims)).
Notation dr := (skipn k dims).

Hypothesis cond : (length dr = 1 /\ strideOneDim perm = k) \/
  forall i, i < length dr -> i <> strideOneDim perm - k -> nth i st 0 <= prod_except dr i.
Hypothesis usd_in : k <= strideOneDim perm.

Lemma in_perm_lt p : In p perm -> p < length dims.
Proof. destruct (perm_facts P) as (_ & _ & B). apply B. Qed.

Lemma usd_last : exists a, perm = a ++ [strideOneDim perm].
Proof.
  destruct (perm_facts P) as (E & _). exists (removelast perm).
  apply app_removelast_last. intros ->. simpl in E. lia.
Qed.

Lemma D_pos l : incl l perm -> 1 <= prod (map D l).
Proof.
  intros I. apply prod_pos. intros x Hx. apply in_map_iff in Hx. destruct Hx as (p & <- & Hp).
  apply pos, in_perm_lt, I, Hp.
Qed.

Lemma D_eq l : (forall p, In p l -> k <= p) ->
  map (fun q => nth q dr 0) (map (fun p => p - k) l) = map D l.
Proof.
  intros H. rewrite map_map. apply map_ext_in. intros p Hp. rewrite nth_skipn'.
  f_equal. specialize (H p Hp). lia.
Qed.

(** After the first remaining dimension all fixed dimensions have extent 1. *)
Lemma fixed_one : forall a b p, perm = a ++ p :: b -> k <= p ->
  prod (map D (filter (fun x => negb (inr x)) b)) = 1.
Proof.
  destruct (perm_facts P) as (EP & ND & B).
  destruct (filter inr perm) as [|r0 q] eqn:Q.
  { intros a b p E Hp. exfalso. assert (In p (filter inr perm)).
    { apply filter_In. split; [rewrite E; apply in_or_app; simpl; auto|apply Nat.leb_le; auto]. }
    rewrite Q in H. inversion H. }
  destruct (filter_first Q) as (a0 & b0 & E0 & F1 & F2 & F3). apply Nat.leb_le in F3.
  assert (One : prod (map D (filter (fun x => negb (inr x)) b0)) = 1).
  { assert (Hr0 : r0 < length dims) by (apply in_perm_lt; rewrite E0; apply in_or_app; simpl; auto).
    assert (I : incl b0 perm) by (rewrite E0; intros x Hx; apply in_or_app; simpl; auto).
    destruct usd_last as [au Eu].
    destruct b0 as [|y b0'] eqn:Eb; [reflexivity|rewrite <- Eb in *].
    assert (Hne : r0 <> strideOneDim perm).
    { intros Heq. assert (In (strideOneDim perm) b0).
      { destruct (@exists_last _ b0) as (b1 & z & Ez); [rewrite Eb; discriminate|].
        rewrite Ez in E0. assert (X : (a0 ++ r0 :: b1) ++ [z] = au ++ [strideOneDim perm]).
        { rewrite <- Eu, E0. lapp. auto. }
        apply app_inj_tail in X. destruct X as [_ ->]. rewrite Ez. apply in_or_app; simpl; auto. }
      rewrite E0 in ND. apply NoDup_remove_2 in ND. apply ND. apply in_or_app. right. congruence. }
    assert (Hc : nth (r0 - k) st 0 <= prod_except dr (r0 - k)).
    { destruct cond as [[C1 C2] | C].
      - exfalso. rewrite skipn_length in C1. lia.
      - apply C; [rewrite skipn_length; lia|lia]. }
    rewrite nth_skipn' in Hc. replace (k + (r0 - k)) with r0 in Hc by lia.
    pose proof P as P'. rewrite E0 in P'. pose proof (strides_split P') as S. rewrite <- E0 in S.
    rewrite S in Hc.
    rewrite (@prod_filter inr D b0) in Hc.
    pose proof (@prod_except_spec dr (r0 - k)) as PE. rewrite skipn_length in PE.
    specialize (PE ltac:(lia)). rewrite nth_skipn' in PE. replace (k + (r0 - k)) with r0 in PE by lia.
    pose proof (rest_perm_ok k P) as RP.
    assert (PD : prod dr = D r0 * prod (map D (filter inr b0))).
    { rewrite <- (@gather_prod (rest_perm k perm) dr); [|rewrite skipn_length; auto].
      unfold gather, rest_perm. rewrite D_eq.
      - rewrite Q, <- F2. reflexivity.
      - intros p Hp. apply filter_In in Hp. apply Nat.leb_le, Hp. }
    rewrite PD in PE.
    assert (1 <= D r0) by (apply pos; auto).
    assert (1 <= prod (map D (filter inr b0))).
    { apply D_pos. intros x Hx. apply filter_In in Hx. apply I, Hx. }
    assert (1 <= prod (map D (filter (fun x => negb (inr x)) b0))).
    { apply D_pos. intros x Hx. apply filter_In in Hx. apply I, Hx. }
    assert (prod_except dr (r0 - k) = prod (map D (filter inr b0))) by nia.
    nia. }
  intros a b p E Hp.
  (* p is r0 or comes later *)
  assert (exists c, b0 = c ++ b).
  { assert (Fa : filter inr a = [] \/ exists x r, filter inr a = x :: r)
      by (destruct (filter inr a); eauto).
    destruct Fa as [Fa | (x & r & Fa)].
    - assert (Q2 : filter inr perm = p :: filter inr b).
      { rewrite E, filter_app, Fa. simpl. destruct (Nat.leb_spec k p); [auto|lia]. }
      rewrite Q in Q2. injection Q2 as -> Qb.
      exists []. simpl.
      (* same split position by NoDup *)
      assert (X : a0 ++ p :: b0 = a ++ p :: b) by (rewrite <- E0, E; auto).
      rewrite E0 in ND. apply (nodup_split_unique ND X).
    - destruct (filter_first Fa) as (a1 & a2 & Ea & G1 & G2 & G3).
      assert (Q2 : filter inr perm = x :: filter inr (a2 ++ p :: b)).
      { rewrite E, Ea. rewrite <- app_assoc. rewrite filter_app, G1. simpl. simpl in G3. rewrite G3. auto. }
      rewrite Q in Q2. injection Q2 as -> Qb.
      assert (X : a0 ++ x :: b0 = a1 ++ x :: (a2 ++ p :: b)).
      { rewrite <- E0, E, Ea. lapp. auto. }
      exists (a2 ++ [p]). lapp.
      rewrite E0 in ND. apply (nodup_split_unique ND X). }
  destruct H as [c Ec]. rewrite Ec in One. rewrite filter_app, map_app, prod_app in One.
  apply Nat.eq_mul_1 in One. apply One.
Qed.

Lemma contiguous_strides : st = calculateStrides (rest_perm k perm) dr.
Proof.
  pose proof (rest_perm_ok k P) as RP. rewrite <- skipn_length in RP.
  apply nth_ext with (d := 0) (d' := 0).
  { rewrite strides_length, !skipn_length, strides_length; auto. }
  intros i Hi. rewrite skipn_length, strides_length in Hi by auto. rewrite nth_skipn'.
  assert (Hin : In (k + i) perm) by (destruct (perm_facts P) as (_ & _ & B); apply B; lia).
  destruct (in_split _ _ Hin) as (a & b & E).
  pose proof P as P'. rewrite E in P'. pose proof (strides_split P') as S. rewrite <- E in S.
  rewrite S. rewrite (@prod_filter inr D b).
  rewrite (fixed_one E) by lia. rewrite Nat.mul_1_r.
  assert (ER : rest_perm k perm = rest_perm k a ++ i :: rest_perm k b).
  { unfold rest_perm. rewrite E, filter_app, map_app. simpl. destruct (Nat.leb_spec k (k + i)); [|lia].
    simpl. f_equal. f_equal. lia. }
  rewrite ER in RP. rewrite ER. rewrite (strides_split RP). unfold rest_perm.
  rewrite D_eq; auto. intros p Hp. apply filter_In in Hp. apply Nat.leb_le, Hp.
Qed.

Lemma contiguous_usd : strideOneDim (rest_perm k perm) = strideOneDim perm - k.
Proof.
  destruct usd_last as [a E].
  unfold strideOneDim at 1. unfold rest_perm. rewrite E at 1. rewrite filter_app, map_app. simpl.
  destruct (Nat.leb_spec k (strideOneDim perm)); [|lia]. simpl. apply last_last.
Qed.
End Contiguous.

Theorem contiguous_sound chk perm dims pre s :
  is_permutation perm (length dims) -> length pre < length dims ->
  valid_index (firstn (length pre) dims) pre ->
  slice_chain chk (whole perm dims) pre = Ok s -> isContiguous s = true ->
  (forall idx, valid_index (s_dims s) idx ->
     exists c, slice_call chk s idx = Ok (s_off s + c)%Z /\ (0 <= c < Z.of_nat (prod (s_dims s)))%Z) /\
  (forall i j, valid_index (s_dims s) i -> valid_index (s_dims s) j ->
     slice_call chk s i = slice_call chk s j -> i = j) /\
  (forall c, (0 <= c < Z.of_nat (prod (s_dims s)))%Z ->
     exists idx, valid_index (s_dims s) idx /\ slice_call chk s idx = Ok (s_off s + c)%Z).
Proof.
  intros P L V C Hc.
  destruct (@slice_chain_ok chk pre (whole perm dims)) as [A B]; auto.
  { apply unit_ok_whole; auto; lia. }
  { simpl; lia. }
  rewrite A in C. injection C as <-. clear A B.
  set (k := length pre) in *. cbn [s_off s_dims s_strides s_usd whole] in *.
  destruct (in_dec Nat.eq_dec 0 (skipn k dims)) as [Z0 | NZ].
  { (* an extent is zero: nothing to show *)
    assert (PZ : prod (skipn k dims) = 0) by (apply prod_zero; auto).
    assert (NV : forall idx, ~ valid_index (skipn k dims) idx).
    { intros idx Vi. destruct (valid_to_nat Vi) as [F _].
      pose proof (lin_bound F). rewrite PZ in H. lia. }
    repeat split.
    - intros idx Vi. destruct (NV _ Vi).
    - intros i j Vi. destruct (NV _ Vi).
    - rewrite PZ. intros; lia. }
  assert (pos : forall p, p < length dims -> 1 <= nth p dims 0).
  { intros p Hp. destruct (Nat.lt_ge_cases p k) as [Hlt | Hge].
    - destruct (valid_to_nat V) as [F _]. pose proof (Forall2_nth_lt_inv F (k := p)) as Q.
      rewrite firstn_length in Q. specialize (Q ltac:(lia)).
      replace (nth p (firstn k dims) 0) with (nth p dims 0) in Q; [lia|].
      rewrite <- (firstn_skipn k dims) at 1. apply app_nth1. rewrite firstn_length. lia.
    - destruct (Nat.eq_dec (nth p dims 0) 0) as [E|]; [|lia]. exfalso. apply NZ.
      rewrite <- E. replace p with (k + (p - k)) by lia. rewrite <- nth_skipn'.
      apply nth_In. rewrite skipn_length. lia. }
  apply isContiguous_true in Hc. cbn [s_off s_dims s_strides s_usd] in Hc.
  destruct Hc as (u & Hu & Hc).
  assert (cond : (length (skipn k dims) = 1 /\ strideOneDim perm = k) \/
    forall i, i < length (skipn k dims) -> i <> strideOneDim perm - k ->
      nth i (skipn k (calculateStrides perm dims)) 0 <= prod_except (skipn k dims) i).
  { destruct Hc as [[C1 C2] | Hc]; [left; split; auto; lia|right].
    intros i Hi Hn. apply Hc; auto. lia. }
  assert (U : k <= strideOneDim perm) by lia.
  pose proof (@contiguous_strides perm dims k P L pos cond U) as ES.
  pose proof (@contiguous_usd perm dims k P L cond U) as EU.
  pose proof (rest_perm_ok k P) as RP. rewrite <- skipn_length in RP.
  assert (L' : 0 < length (skipn k dims)) by (rewrite skipn_length; lia).
  assert (EQ : forall idx, valid_index (skipn k dims) idx ->
     slice_call chk (mkSlice (0 + zdot (firstn k (calculateStrides perm dims)) pre) (skipn k dims)
                    (skipn k (calculateStrides perm dims)) (Z.of_nat (strideOneDim perm) - Z.of_nat k)) idx
     = Ok ((0 + zdot (firstn k (calculateStrides perm dims)) pre)
         + getLinearIndex (Z.of_nat (strideOneDim (rest_perm k perm)))
             (calculateStrides (rest_perm k perm) (skipn k dims)) idx)%Z).
  { intros idx Vi. rewrite slice_call_valid by auto. cbn [s_off s_strides s_usd].
    rewrite ES, EU. f_equal. f_equal. f_equal. lia. }
  repeat split.
  - intros idx Vi. rewrite EQ by auto. eexists. split; [reflexivity|].
    apply linear_index_in_range; auto.
  - intros i j Vi Vj E. rewrite !EQ in E by auto. injection E as E.
    apply (@linear_index_injective (rest_perm k perm) (skipn k dims)); auto. lia.
  - intros c Hcc. destruct (@linear_index_surjective (rest_perm k perm) (skipn k dims) c) as (idx & Vi & E); auto.
    exists idx. split; auto. rewrite EQ by auto. rewrite E. auto.
Qed.

(** ** Traversal *)
Fixpoint lexenum (dims : list nat) : list (list Z) :=
  match dims with
  | [] => [[]]
  | d :: ds => flat_map (fun i => map (cons (Z.of_nat i)) (lexenum ds)) (seq 0 d)
  end.

Lemma in_lexenum dims idx : In idx (lexenum dims) <-> valid_index dims idx.
Proof.
  revert idx; induction dims as [|d ds IH]; intros idx; simpl.
  - split; [intros [<-|[]]; constructor|]. intros H; inversion H; auto.
  - rewrite in_flat_map. split.
    + intros (i & Hi & H). apply in_seq in Hi. apply in_map_iff in H. destruct H as (r & <- & Hr).
      constructor; [lia|]. apply IH; auto.
    + intros H. inversion H as [|i ? r ? Hi Hr]; subst. exists (Z.to_nat i). split; [apply in_seq; lia|].
      apply in_map_iff. exists r. split; [f_equal; lia|]. apply IH; auto.
Qed.

Lemma StronglySorted_app {A} (R : A -> A -> Prop) a b :
  StronglySorted R a -> StronglySorted R b -> (forall x y, In x a -> In y b -> R x y) ->
  StronglySorted R (a ++ b).
Proof.
  induction 1 as [|x a S IH F]; intros Sb H; simpl; auto. constructor.
  - apply IH; auto. intros; apply H; simpl; auto.
  - apply Forall_app. split; auto. apply Forall_forall. intros; apply H; simpl; auto.
Qed.

Lemma lexenum_sorted dims : StronglySorted lex_lt (lexenum dims).
Proof.
  induction dims as [|d ds IH]; simpl.
  - constructor; constructor.
  - generalize 0 as j. induction d as [|d IHd]; intros j; simpl; [constructor|].
    apply StronglySorted_app; auto.
    + clear -IH. induction IH; simpl; constructor; auto.
      apply Forall_forall. intros y Hy. apply in_map_iff in Hy. destruct Hy as (z & <- & Hz).
      simpl. right. split; auto. rewrite Forall_forall in H. auto.
    + intros x y Hx Hy. apply in_map_iff in Hx. destruct Hx as (z & <- & Hz).
      apply in_flat_map in Hy. destruct Hy as (i & Hi & Hy). apply in_seq in Hi.
      apply in_map_iff in Hy. destruct Hy as (z' & <- & Hz'). simpl. left. lia.
Qed.

Lemma lex_lt_irrefl a : ~ lex_lt a a.
Proof. induction a; simpl; auto. intros [H|[_ H]]; auto. lia. Qed.

Lemma StronglySorted_NoDup {A} (R : A -> A -> Prop) l :
  (forall x, ~ R x x) -> StronglySorted R l -> NoDup l.
Proof.
  intros I. induction 1; constructor; auto. intros Hin. rewrite Forall_forall in H0.
  apply (I a). auto.
Qed.

(** Run [f] on the elements of a list from left to right. *)
Fixpoint fold_out {A S} (f : A -> S -> outcome S) (l : list A) (s : S) : outcome S :=
  match l with
  | [] => Ok s
  | a :: l' => s' <- f a s ;; fold_out f l' s'
  end.

Lemma bind_assoc {A B C} (m : outcome A) (f : A -> outcome B) (g : B -> outcome C) :
  bind (bind m f) g = bind m (fun a => bind (f a) g).
Proof. destruct m; auto. Qed.

Lemma fold_out_app {A S} (f : A -> S -> outcome S) l1 l2 s :
  fold_out f (l1 ++ l2) s = (s' <- fold_out f l1 s ;; fold_out f l2 s').
Proof.
  revert s; induction l1; intros s; simpl; auto. rewrite bind_assoc.
  destruct (f a s); simpl; auto.
Qed.

Lemma fold_out_map {A B S} (f : B -> S -> outcome S) (g : A -> B) l s :
  fold_out f (map g l) s = fold_out (fun a => f (g a)) l s.
Proof. revert s; induction l; intros s; simpl; auto. destruct (f (g a) s); simpl; auto. Qed.

Lemma fold_out_ext {A S} (f g : A -> S -> outcome S) l s :
  (forall a s, In a l -> f a s = g a s) -> fold_out f l s = fold_out g l s.
Proof.
  revert s; induction l; intros s H; simpl; auto. rewrite H by (simpl; auto).
  destruct (g a s); simpl; auto. apply IHl. intros; apply H; simpl; auto.
Qed.

Lemma for_up_fold {S} n (f : nat -> S -> outcome S) i s : for_up n f i s = fold_out f (seq i n) s.
Proof.
  revert i s; induction n; intros i s; simpl; auto. rewrite Nat.add_1_r.
  destruct (f i s); simpl; auto.
Qed.

Lemma fold_out_flat_map {A B S} (f : B -> S -> outcome S) (g : A -> list B) l s :
  fold_out f (flat_map g l) s = fold_out (fun a s => fold_out f (g a) s) l s.
Proof.
  revert s; induction l; intros s; simpl; auto. rewrite fold_out_app.
  destruct (fold_out f (g a) s); simpl; auto.
Qed.

Definition slot_of (s : slice) (idx : list Z) : Z :=
  (s_off s + getLinearIndex (s_usd s) (s_strides s) idx)%Z.

Lemma forValues_fold {St} chk : forall n s pre (f : Z -> list Z -> St -> outcome St) st,
  n = length (s_dims s) -> unit_ok s ->
  forValuesInSlice n chk s pre f st =
  fold_out (fun idx st => f (slot_of s idx) (pre ++ idx) st) (lexenum (s_dims s)) st.
Proof.
  induction n as [|n IH]; intros s pre f st En U.
  - destruct (s_dims s) as [|] eqn:E; [|discriminate]. destruct U as [U1 U2]. rewrite E in U1.
    destruct (s_strides s) eqn:E2; [|discriminate]. simpl. rewrite app_nil_r.
    unfold slot_of. rewrite E2. simpl. rewrite Z.add_0_r. destruct (f (s_off s) pre st); auto.
  - destruct (s_dims s) as [|d ds] eqn:E; [discriminate|].
    destruct (s_strides s) as [|t ts] eqn:E2.
    { destruct U as [U1 U2]. rewrite E, E2 in U1. discriminate. }
    cbn [forValuesInSlice]. rewrite E. rewrite for_up_fold. cbn [lexenum]. rewrite fold_out_flat_map.
    apply fold_out_ext. intros i st' Hi. apply in_seq in Hi.
    destruct (@slice_index_ok chk s (Z.of_nat i) d ds t ts) as [A B]; auto; [lia|].
    rewrite A. cbn [bind]. rewrite IH; auto. cbn [s_dims].
    rewrite fold_out_map. apply fold_out_ext. intros idx st'' Hidx. apply in_lexenum in Hidx.
    rewrite <- app_assoc. cbn [app]. f_equal. unfold slot_of. cbn [s_off s_usd s_strides].
    pose proof (valid_len Hidx) as Li. destruct U as [U1 U2]. destruct B as [B1 B2]. cbn in B1, B2.
    rewrite (@getLinearIndex_zdot (s_strides s)).
    + rewrite getLinearIndex_zdot; [|lia|auto]. rewrite E2. simpl. lia.
    + rewrite <- U1, E. simpl. lia.
    + auto.
Qed.

Theorem forValues_visits chk s : unit_ok s ->
  exists L : list (list Z),
    (forall idx, In idx L <-> valid_index (s_dims s) idx) /\ NoDup L /\ StronglySorted lex_lt L /\
    forall St (f : Z -> list Z -> St -> outcome St) st,
      forValuesInSlice (length (s_dims s)) chk s [] f st =
      fold_out (fun idx st => k <- slice_call chk s idx ;; f k idx st) L st.
Proof.
  intros U. exists (lexenum (s_dims s)). split; [apply in_lexenum|]. split; [|split].
  - eapply StronglySorted_NoDup; [apply lex_lt_irrefl|apply lexenum_sorted].
  - apply lexenum_sorted.
  - intros St f st. rewrite forValues_fold by auto. apply fold_out_ext.
    intros idx st' Hi. apply in_lexenum in Hi. rewrite slice_call_valid by auto. reflexivity.
Qed.
