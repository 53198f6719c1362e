(** Property C43: memcpy. *)
From Coq Require Import List Arith ZArith Lia Bool Permutation.
From Verif Require Import Base BaseProofs Indexing IndexingSpec IndexingProofs IndexingProofs2 Memcpy.
Import ListNotations.
Set Implicit Arguments.

Lemma chain_placed chk b : forall pre s, slice_chain chk (placed b s) pre = (s' <- slice_chain chk s pre ;; Ok (placed b s')).
Proof.
  induction pre as [|i pre IH]; intros s; [reflexivity|]. cbn [slice_chain]. unfold slice_index at 1 2. cbn [placed s_dims s_strides s_off s_usd].
  destruct (s_dims s) as [|d ds]; [reflexivity|]. destruct (s_strides s) as [|st sts]; [reflexivity|].
  destruct (if chk then error_if ((i <? 0)%Z || (Z.of_nat d <=? i)%Z)%bool else Ok tt); cbn [bind]; auto. rewrite <- IH. unfold placed. cbn [s_dims s_strides s_off s_usd]. rewrite Z.add_assoc. reflexivity.
Qed.
Lemma call_placed chk b s idx : slice_call chk (placed b s) idx = (k <- slice_call chk s idx ;; Ok (Z.of_nat b + k)%Z).
Proof.
  unfold slice_call, linearIndex, placed. cbn [s_dims s_strides s_off s_usd]. destruct (if chk then checkIndices (s_dims s) idx else Ok tt); cbn [bind]; auto. rewrite Z.add_assoc. reflexivity.
Qed.

(** [s] is what operator[] gives for the indices [pre] of an array with permutation [perm] and extents [dims] which starts
    at slot [b] of a memory of [size] slots. *)
Definition part_of (chk : bool) (size b : nat) (perm dims : list nat) (pre : list Z) (s : slice) : Prop :=
  is_permutation perm (length dims) /\ length pre < length dims /\ valid_index (firstn (length pre) dims) pre /\
  b + extent_product dims <= size /\ slice_chain chk (placed b (whole perm dims)) pre = Ok s.
(** No value belongs to both slices. *)
Definition apart (chk : bool) (dst src : slice) : Prop :=
  forall i j, valid_index (s_dims dst) i -> valid_index (s_dims src) j -> slice_call chk dst i <> slice_call chk src j.
(** The value at the indices [idx] of a slice. *)
Definition value_is {V} (chk : bool) (memory : list V) (s : slice) (idx : list Z) (v : V) : Prop :=
  exists k, slice_call chk s idx = Ok (Z.of_nat k) /\ nth_error memory k = Some v.

Lemma part_contiguous chk size b perm dims pre s : part_of chk size b perm dims pre s -> isContiguous s = true ->
  (forall idx, valid_index (s_dims s) idx -> exists c, slice_call chk s idx = Ok (s_off s + c)%Z /\ (0 <= c < Z.of_nat (slice_size s))%Z) /\
  (forall c, (0 <= c < Z.of_nat (slice_size s))%Z -> exists idx, valid_index (s_dims s) idx /\ slice_call chk s idx = Ok (s_off s + c)%Z) /\
  (0 < slice_size s -> (0 <= s_off s /\ s_off s + Z.of_nat (slice_size s) <= Z.of_nat size)%Z) /\ unit_ok s /\ length (s_dims s) = length dims - length pre.
Proof.
  intros (P & L & Vp & Hb & C) Hc. rewrite chain_placed in C. assert (U : unit_ok (whole perm dims)) by (apply unit_ok_whole; auto; lia).
  destruct (@slice_chain_ok chk pre (whole perm dims) U) as [C0 U0]; [cbn; lia|exact Vp|]. cbn [whole s_off s_dims s_strides s_usd] in C0, U0.
  remember (mkSlice _ _ _ _) as s0 eqn:Es0 in C0, U0. rewrite C0 in C. cbn [bind] in C. injection C as <-.
  assert (Hc0 : isContiguous s0 = true) by exact Hc. destruct (@contiguous_sound chk perm dims pre s0 P L Vp C0 Hc0) as (A & B & D).
  assert (Es : slice_size (placed b s0) = prod (s_dims s0)) by (unfold slice_size; cbn [placed s_dims]; apply multiplyAll_prod).
  rewrite Es. cbn [placed s_off s_dims s_strides]. split; [|split; [|split; [|split]]].
  - intros idx Vi. destruct (A idx Vi) as (c & Ec & Hcc). exists c. rewrite call_placed, Ec. cbn [bind]. split; [f_equal; lia|exact Hcc].
  - intros c Hcc. destruct (D c Hcc) as (idx & Vi & Ec). exists idx. split; [exact Vi|]. rewrite call_placed, Ec. cbn [bind]. f_equal. lia.
  - intros Pos.
    assert (In0 : forall c, (0 <= c < Z.of_nat (prod (s_dims s0)))%Z -> (0 <= s_off s0 + c < Z.of_nat (extent_product dims))%Z).
    { intros c Hcc. destruct (D c Hcc) as (idx & Vi & Ec).
      assert (Vall : valid_index dims (pre ++ idx)) by (rewrite <- (firstn_skipn (length pre) dims); apply Forall2_app; [assumption|]; rewrite Es0 in Vi; exact Vi).
      destruct (@slice_chain_call chk (whole perm dims) pre idx U Vall) as (s1 & C1 & _ & _ & _ & Ecall). rewrite C0 in C1. injection C1 as <-.
      rewrite Ec in Ecall. rewrite slice_call_valid in Ecall by exact Vall. injection Ecall as Ecall. cbn [whole s_off s_strides s_usd] in Ecall. rewrite Ecall. apply linear_index_in_range; auto; lia. }
    pose proof (In0 0%Z ltac:(lia)). pose proof (In0 (Z.of_nat (prod (s_dims s0)) - 1)%Z ltac:(lia)). lia.
  - destruct U0 as [Ul Uu]. split; [exact Ul|exact Uu].
  - rewrite Es0. cbn [s_dims]. apply skipn_length.
Qed.
Lemma strides_pass dst src : length (s_strides dst) = length (s_dims dst) -> length (s_strides src) = length (s_dims dst) ->
  forall n i, i + n = length (s_dims dst) ->
  for_up n (fun i _ => d <- aget (s_strides dst) i ;; s <- aget (s_strides src) i ;; error_if (negb (d =? s))) i tt =
  if list_eq_dec Nat.eq_dec (skipn i (s_strides dst)) (skipn i (s_strides src)) then Ok tt else Abort.
Proof.
  intros L1 L2. induction n as [|n IH]; intros i E.
  - cbn [for_up]. rewrite !skipn_all2 by lia. reflexivity.
  - cbn [for_up]. destruct (nth_error (s_strides dst) i) as [a|] eqn:Ea; [|apply nth_error_None in Ea; lia].
    destruct (nth_error (s_strides src) i) as [c|] eqn:Ec; [|apply nth_error_None in Ec; lia].
    unfold aget at 1 2. rewrite Ea, Ec. cbn [bind].
    assert (Sk : forall (l : list nat) x, nth_error l i = Some x -> skipn i l = x :: skipn (i + 1) l).
    { clear. induction i as [|i IH]; intros [|y l] x H; cbn in *; try discriminate; [injection H as ->; reflexivity|]. apply IH. exact H. }
    rewrite (Sk _ _ Ea), (Sk _ _ Ec). destruct (Nat.eqb_spec a c) as [->|N]; cbn [negb error_if bind].
    + rewrite IH by lia. destruct (list_eq_dec Nat.eq_dec (skipn (i + 1) (s_strides dst)) (skipn (i + 1) (s_strides src))) as [Eq|Nq].
      * rewrite Eq. destruct (list_eq_dec Nat.eq_dec _ _) as [_|X]; congruence.
      * destruct (list_eq_dec Nat.eq_dec _ _) as [X|_]; [injection X as X; congruence|reflexivity].
    + destruct (list_eq_dec Nat.eq_dec _ _) as [X|_]; [injection X as X; congruence|reflexivity].
Qed.
Lemma splice_nth {V} (m : list V) d s n k : d + n <= length m -> s + n <= length m ->
  nth_error (firstn d m ++ firstn n (skipn s m) ++ skipn (d + n) m) k =
  if ((d <=? k) && (k <? d + n))%bool then nth_error m (s + (k - d)) else nth_error m k.
Proof.
  intros Hd Hs. assert (Nf : forall (l : list V) a i, i < a -> nth_error (firstn a l) i = nth_error l i).
  { clear. induction l as [|x l IH]; intros [|a] [|i] H; cbn; try lia; auto. apply IH. lia. }
  assert (Ns : forall (l : list V) a i, nth_error (skipn a l) i = nth_error l (a + i)).
  { clear. induction l as [|x l IH]; intros [|a] i; cbn; auto. destruct i; reflexivity. }
  destruct (Nat.leb_spec d k); cbn [andb].
  - rewrite nth_error_app2 by (rewrite firstn_length; lia). rewrite firstn_length, Nat.min_l by lia. destruct (Nat.ltb_spec k (d + n)).
    + rewrite nth_error_app1 by (rewrite firstn_length, skipn_length; lia). rewrite Nf by lia. apply Ns.
    + rewrite nth_error_app2 by (rewrite firstn_length, skipn_length; lia). rewrite firstn_length, skipn_length, Nat.min_l by lia. rewrite Ns. f_equal. lia.
  - rewrite nth_error_app1 by (rewrite firstn_length; lia). apply Nf. lia.
Qed.

(** C43: between contiguous slices of equal size and strides which have no value in common: every value of the
    destination is the value which the source has at the same place (in particular at the same indices, whenever they are
    valid for both), and nothing else changes. *)
Theorem C43_memcpy : forall V chk (memory : list V) bd permd dimsd pred dst bs perms dimss pres src,
  part_of chk (length memory) bd permd dimsd pred dst -> part_of chk (length memory) bs perms dimss pres src ->
  s_usd dst = s_usd src -> length (s_dims dst) = length (s_dims src) ->
  slice_size dst = slice_size src -> s_strides dst = s_strides src -> isContiguous dst = true -> isContiguous src = true -> apart chk dst src ->
  exists memory', memcpy_views chk (placed bd (whole permd dimsd)) pred (placed bs (whole perms dimss)) pres memory = Ok memory' /\
    length memory' = length memory /\
    (forall idx v, valid_index (s_dims dst) idx -> valid_index (s_dims src) idx -> (value_is chk memory src idx v -> value_is chk memory' dst idx v)) /\
    (forall idx, valid_index (s_dims dst) idx -> exists j v, valid_index (s_dims src) j /\ value_is chk memory src j v /\ value_is chk memory' dst idx v) /\
    (forall k, (forall idx, valid_index (s_dims dst) idx -> slice_call chk dst idx <> Ok (Z.of_nat k)) -> nth_error memory' k = nth_error memory k).
Proof.
  intros V chk m bd permd dimsd pred dst bs perms dimss pres src Pd Ps Eu El En Est Cd Cs Ap.
  destruct (part_contiguous Pd Cd) as (D1 & D2 & D3 & [Du _] & _). destruct (part_contiguous Ps Cs) as (S1 & S2 & S3 & [Su _] & _).
  unfold memcpy_views. rewrite (proj2 (proj2 (proj2 (proj2 Pd)))). cbn [bind]. rewrite (proj2 (proj2 (proj2 (proj2 Ps)))). cbn [bind].
  unfold memcpy_slices. rewrite <- En, Nat.eqb_refl. cbn [negb error_if bind]. rewrite strides_pass by lia. rewrite Est. destruct (list_eq_dec Nat.eq_dec _ _) as [_|X]; [|congruence].
  cbn [bind]. unfold dataIfContiguous. rewrite Cd, Cs. cbn [negb error_if bind].
  assert (Same : forall idx, valid_index (s_dims dst) idx -> valid_index (s_dims src) idx -> forall c, slice_call chk dst idx = Ok (s_off dst + c)%Z -> slice_call chk src idx = Ok (s_off src + c)%Z).
  { intros idx V1 V2 c. rewrite !slice_call_valid by assumption. rewrite Eu, Est. intros E. injection E as E. f_equal. lia. }
  unfold std_memcpy. destruct (slice_size dst) as [|n] eqn:Sz.
  - exists m. split; [reflexivity|]. split; [reflexivity|]. split; [|split; [|auto]].
    + intros idx v Vi. destruct (D1 idx Vi) as (c & _ & H). lia.
    + intros idx Vi. destruct (D1 idx Vi) as (c & _ & H). lia.
  - specialize (D3 ltac:(lia)). rewrite <- En in S1, S2, S3. specialize (S3 ltac:(lia)).
    assert (Td : to_ix (s_off dst) = Ok (Z.to_nat (s_off dst))) by (unfold to_ix; rewrite (proj2 (Z.ltb_ge _ _)) by lia; reflexivity).
    assert (Ts : to_ix (s_off src) = Ok (Z.to_nat (s_off src))) by (unfold to_ix; rewrite (proj2 (Z.ltb_ge _ _)) by lia; reflexivity).
    rewrite Td, Ts. cbn [bind]. set (d := Z.to_nat (s_off dst)) in *. set (s := Z.to_nat (s_off src)) in *. set (N := S n) in *.
    rewrite (proj2 (Nat.leb_le (d + N) _)) by lia. rewrite (proj2 (Nat.leb_le (s + N) _)) by lia.
    assert (Dis : d + N <= s \/ s + N <= d).
    { destruct (Nat.le_gt_cases (d + N) s) as [|G1]; [auto|]. destruct (Nat.le_gt_cases (s + N) d) as [|G2]; [auto|]. exfalso.
      set (x := Nat.max d s). destruct (D2 (Z.of_nat x - s_off dst)%Z ltac:(lia)) as (i & Vi & Ei). destruct (S2 (Z.of_nat x - s_off src)%Z ltac:(lia)) as (j & Vj & Ej).
      apply (Ap i j Vi Vj). rewrite Ei, Ej. f_equal. lia. }
    assert (((d + N <=? s) || (s + N <=? d))%bool = true) as -> by (destruct Dis; [rewrite (proj2 (Nat.leb_le _ _)) by assumption; reflexivity|rewrite (proj2 (Nat.leb_le (s + N) d)) by assumption; apply orb_true_r]).
    cbn [andb]. eexists. split; [reflexivity|]. split; [rewrite !app_length, !firstn_length, !skipn_length; lia|].
    assert (Val : forall c, (0 <= c < Z.of_nat N)%Z -> nth_error (firstn d m ++ firstn N (skipn s m) ++ skipn (d + N) m) (d + Z.to_nat c) = nth_error m (s + Z.to_nat c)).
    { intros c Hcc. rewrite splice_nth by lia. rewrite (proj2 (Nat.leb_le _ _)) by lia. rewrite (proj2 (Nat.ltb_lt _ _)) by lia. cbn [andb]. f_equal. lia. }
    split; [|split].
    + intros idx v V1 V2 (k & Ek & Hk). destruct (D1 idx V1) as (c & Ec & Hcc). rewrite (Same idx V1 V2 c Ec) in Ek. injection Ek as Ek.
      exists (d + Z.to_nat c). split; [rewrite Ec; f_equal; lia|]. rewrite Val by assumption. rewrite <- Hk. f_equal. lia.
    + intros idx V1. destruct (D1 idx V1) as (c & Ec & Hcc). destruct (S2 c Hcc) as (j & Vj & Ej).
      destruct (nth_error m (s + Z.to_nat c)) as [v|] eqn:Ev; [|apply nth_error_None in Ev; lia].
      exists j, v. split; [exact Vj|]. split.
      * exists (s + Z.to_nat c). split; [rewrite Ej; f_equal; lia|exact Ev].
      * exists (d + Z.to_nat c). split; [rewrite Ec; f_equal; lia|]. rewrite Val by assumption. exact Ev.
    + intros k Hk. rewrite splice_nth by lia. destruct (Nat.leb_spec d k); cbn [andb]; [|reflexivity]. destruct (Nat.ltb_spec k (d + N)); [|reflexivity]. exfalso.
      destruct (D2 (Z.of_nat k - s_off dst)%Z ltac:(lia)) as (i & Vi & Ei). apply (Hk i Vi). rewrite Ei. f_equal. lia.
Qed.
Print Assumptions C43_memcpy.
(** Slices with a value in common are not rejected: the call is undefined, even from a slice to itself. *)
Theorem C43_overlap_refuted : forall V chk (memory : list V) bd permd dimsd pred dst bs perms dimss pres src i j,
  part_of chk (length memory) bd permd dimsd pred dst -> part_of chk (length memory) bs perms dimss pres src ->
  length (s_dims dst) = length (s_dims src) ->
  slice_size dst = slice_size src -> s_strides dst = s_strides src -> isContiguous dst = true -> isContiguous src = true ->
  valid_index (s_dims dst) i -> valid_index (s_dims src) j -> slice_call chk dst i = slice_call chk src j ->
  memcpy_views chk (placed bd (whole permd dimsd)) pred (placed bs (whole perms dimss)) pres memory = Fault FOob.
Proof.
  intros V chk m bd permd dimsd pred dst bs perms dimss pres src i j Pd Ps El En Est Cd Cs Vi Vj E.
  destruct (part_contiguous Pd Cd) as (D1 & D2 & D3 & [Du _] & _). destruct (part_contiguous Ps Cs) as (S1 & S2 & S3 & [Su _] & _).
  unfold memcpy_views. rewrite (proj2 (proj2 (proj2 (proj2 Pd)))). cbn [bind]. rewrite (proj2 (proj2 (proj2 (proj2 Ps)))). cbn [bind].
  unfold memcpy_slices. rewrite <- En, Nat.eqb_refl. cbn [negb error_if bind]. rewrite strides_pass by lia. rewrite Est. destruct (list_eq_dec Nat.eq_dec _ _) as [_|X]; [|congruence].
  cbn [bind]. unfold dataIfContiguous. rewrite Cd, Cs. cbn [negb error_if bind].
  destruct (D1 i Vi) as (c & Ec & Hc). destruct (S1 j Vj) as (c' & Ec' & Hc'). rewrite Ec, Ec' in E. injection E as E. rewrite <- En in *.
  specialize (D3 ltac:(lia)). specialize (S3 ltac:(lia)). unfold std_memcpy. destruct (slice_size dst) as [|n] eqn:Sz; [lia|].
  assert (Td : to_ix (s_off dst) = Ok (Z.to_nat (s_off dst))) by (unfold to_ix; rewrite (proj2 (Z.ltb_ge _ _)) by lia; reflexivity).
  assert (Ts : to_ix (s_off src) = Ok (Z.to_nat (s_off src))) by (unfold to_ix; rewrite (proj2 (Z.ltb_ge _ _)) by lia; reflexivity).
  rewrite Td, Ts. cbn [bind]. rewrite (proj2 (Nat.leb_gt (Z.to_nat (s_off dst) + S n) (Z.to_nat (s_off src)))) by lia.
  rewrite (proj2 (Nat.leb_gt (Z.to_nat (s_off src) + S n) (Z.to_nat (s_off dst)))) by lia. cbn [orb]. rewrite andb_false_r. reflexivity.
Qed.
Print Assumptions C43_overlap_refuted.

(** C43: sizes, strides or contiguity not as above: abort. *)
Theorem C43_aborts : forall V chk (memory : list V) bd permd dimsd pred dst bs perms dimss pres src,
  part_of chk (length memory) bd permd dimsd pred dst -> part_of chk (length memory) bs perms dimss pres src ->
  length (s_dims dst) = length (s_dims src) ->
  slice_size dst <> slice_size src \/ s_strides dst <> s_strides src \/ isContiguous dst = false \/ isContiguous src = false ->
  memcpy_views chk (placed bd (whole permd dimsd)) pred (placed bs (whole perms dimss)) pres memory = Abort.
Proof.
  intros V chk m bd permd dimsd pred dst bs perms dimss pres src Pd Ps El H.
  assert (Lens : forall b perm dims pre s, part_of chk (length m) b perm dims pre s -> length (s_strides s) = length (s_dims s)).
  { intros b perm dims pre s (P & L & Vp & Hb & C). rewrite chain_placed in C. assert (U : unit_ok (whole perm dims)) by (apply unit_ok_whole; auto; lia).
    destruct (@slice_chain_ok chk pre (whole perm dims) U) as [C0 [U0 _]]; [cbn; lia|exact Vp|]. rewrite C0 in C. injection C as <-. cbn in *. lia. }
  unfold memcpy_views. rewrite (proj2 (proj2 (proj2 (proj2 Pd)))). cbn [bind]. rewrite (proj2 (proj2 (proj2 (proj2 Ps)))). cbn [bind].
  apply Lens in Pd, Ps. unfold memcpy_slices. destruct (Nat.eqb_spec (slice_size dst) (slice_size src)) as [En|En]; cbn [negb error_if bind]; [|reflexivity].
  rewrite strides_pass by lia. destruct (list_eq_dec Nat.eq_dec _ _) as [Es|Es]; cbn [bind]; [|reflexivity]. cbn [skipn] in Es.
  unfold dataIfContiguous. destruct (isContiguous dst); cbn [negb error_if bind]; [|reflexivity]. destruct (isContiguous src); cbn [negb error_if bind]; [|reflexivity].
  exfalso. intuition congruence.
Qed.
Print Assumptions C43_aborts.

(** For two arrays of one layout which are not empty, equal sizes and strides mean equal extents, ... *)
Theorem C43_same_layout : forall perm dims dims', is_permutation perm (length dims) -> length dims' = length dims -> 0 < length dims ->
  s_strides (whole perm dims) = s_strides (whole perm dims') -> slice_size (whole perm dims) = slice_size (whole perm dims') ->
  0 < slice_size (whole perm dims) -> dims = dims'.
Proof.
  intros perm dims dims' P L Pos Es En Hn. unfold slice_size in *. cbn [whole s_dims s_strides] in *. rewrite !multiplyAll_prod in *.
  destruct (perm_facts P) as (Lp & _). assert (P' : is_permutation perm (length dims')) by (rewrite L; exact P).
  apply (@gather_inj perm (length dims)); auto.
  assert (Suf : forall k, k < length dims -> prod (skipn (S k) (gather perm dims)) = prod (skipn (S k) (gather perm dims'))).
  { intros k Hk. pose proof (strides_spec P Hk) as A. assert (Hk' : k < length dims') by lia. pose proof (strides_spec P' Hk') as B. rewrite Es in A. rewrite A in B.
    unfold faster_product in B. unfold gather. rewrite !skipn_map. exact B. }
  assert (Tot : prod (gather perm dims) = prod (gather perm dims')) by (rewrite !gather_prod by assumption; exact En).
  assert (Hp : 0 < prod (gather perm dims)) by (rewrite gather_prod by assumption; exact Hn).
  assert (La : length (gather perm dims) = length dims) by (unfold gather; rewrite map_length; lia). assert (Lb : length (gather perm dims') = length dims) by (unfold gather; rewrite map_length; lia).
  revert Suf Tot Hp La Lb. generalize (gather perm dims) (gather perm dims') (length dims). clear. intros a b n. revert a b.
  induction n as [|n IH]; intros [|x a] [|y b] Suf Tot Hp La Lb; try discriminate; auto.
  pose proof (Suf 0 ltac:(lia)) as S0. cbn [skipn] in S0. cbn [prod fold_right] in Tot, Hp. fold (prod a) in *. fold (prod b) in *.
  assert (Hpa : 0 < prod a) by (destruct (prod a); lia). f_equal; [rewrite <- S0 in Tot; apply Nat.mul_cancel_r in Tot; lia|].
  apply IH; auto. intros k Hk. apply (Suf (S k)). lia.
Qed.
Print Assumptions C43_same_layout.

(** ... but arrays of different layouts and different extents are accepted. *)
Theorem C43_unit_extents : exists permd dimsd perms dimss (memory memory' : list nat),
  part_of true (length memory) 0 permd dimsd [] (placed 0 (whole permd dimsd)) /\ part_of true (length memory) 6 perms dimss [] (placed 6 (whole perms dimss)) /\
  s_usd (whole permd dimsd) = s_usd (whole perms dimss) /\ length dimsd = length dimss /\ dimsd <> dimss /\
  memcpy_views true (placed 0 (whole permd dimsd)) [] (placed 6 (whole perms dimss)) [] memory = Ok memory'.
Proof.
  exists [0; 1; 2], [2; 1; 3], [1; 0; 2], [1; 2; 3], (repeat 0 6 ++ repeat 7 6), (repeat 7 12). cbn [length].
  assert (P : is_permutation [1; 0; 2] 3) by (unfold is_permutation; cbn; apply perm_swap).
  split; [|split; [|split; [|split; [|split]]]]; try (vm_compute; reflexivity); try discriminate; try (split; [first [exact P|apply Permutation_refl]|]; split; [cbn; lia|]; split; [constructor|]; split; [cbn; lia|reflexivity]).
Qed.
Print Assumptions C43_unit_extents.
(** A row of one array into another row of the same array. *)
Example C43_case :
  part_of true 6 0 [0; 1] [2; 3] [1%Z] (mkSlice 3 [3] [1] 0) /\ part_of true 6 0 [0; 1] [2; 3] [0%Z] (mkSlice 0 [3] [1] 0) /\
  memcpy_views true (placed 0 (whole [0; 1] [2; 3])) [1%Z] (placed 0 (whole [0; 1] [2; 3])) [0%Z] [1; 2; 3; 4; 5; 6] = Ok [1; 2; 3; 1; 2; 3].
Proof.
  split; [|split; [|reflexivity]]; (split; [apply Permutation_refl|]; split; [cbn; lia|]; split; [repeat constructor; lia|]; split; [cbn; lia|reflexivity]).
Qed.
