From Coq Require Import List Arith ZArith Lia Bool Permutation.
From Verif Require Import Base BaseProofs Indexing IndexingSpec.
Import ListNotations.
Set Implicit Arguments.
Unset Strict Implicit.

Notation prod := extent_product.

Lemma multiplyAll_prod vs : multiplyAll vs = prod vs.
Proof.
  induction vs as [|v vs IH]; auto. destruct vs as [|w vs].
  - simpl. lia.
  - change (multiplyAll (v :: w :: vs)) with (v * multiplyAll (w :: vs)). rewrite IH. reflexivity.
Qed.

Lemma prod_app a b : prod (a ++ b) = prod a * prod b.
Proof. induction a; simpl; [lia|]. unfold prod in *. simpl. rewrite IHa. lia. Qed.

Lemma prod_perm a b : Permutation a b -> prod a = prod b.
Proof. induction 1; unfold prod in *; simpl; lia. Qed.

Lemma map_nth_seq {A} (l : list A) d : map (fun i => nth i l d) (seq 0 (length l)) = l.
Proof.
  induction l as [|a l IH]; simpl; auto. f_equal.
  rewrite <- seq_shift, map_map. simpl. exact IH.
Qed.

(** ** scatter *)
Lemma scatter_gen perm vals acc :
  NoDup perm -> length perm = length vals -> (forall p, In p perm -> p < length acc) ->
  let r := fold_left (fun acc pv => upd acc (fst pv) (snd pv)) (combine perm vals) acc in
  length r = length acc /\
  (forall k, k < length perm -> nth (nth k perm 0) r 0 = nth k vals 0) /\
  (forall j, ~ In j perm -> nth j r 0 = nth j acc 0).
Proof.
  revert vals acc; induction perm as [|p perm IH]; intros vals acc ND L B; simpl.
  - repeat split; auto. intros; lia.
  - destruct vals as [|v vals]; [discriminate|]. simpl in *. inversion ND; subst.
    destruct (IH vals (upd acc p v)) as (A1 & A2 & A3); auto.
    { intros q Hq. rewrite upd_length. auto. }
    split; [rewrite A1, upd_length; auto|]. split.
    + intros [|k] Hk.
      * rewrite A3 by auto. apply nth_upd_eq. auto.
      * apply A2. lia.
    + intros j Hj. rewrite A3 by tauto. apply nth_upd_ne. intros ->; tauto.
Qed.

Lemma perm_facts perm n : is_permutation perm n ->
  length perm = n /\ NoDup perm /\ (forall p, In p perm <-> p < n).
Proof.
  intros H. unfold is_permutation in H. split; [|split].
  - rewrite (Permutation_length H), seq_length; auto.
  - eapply Permutation_NoDup; [apply Permutation_sym; eauto|apply seq_NoDup].
  - intros p. split; intros Hp.
    + eapply Permutation_in in Hp; eauto. apply in_seq in Hp. lia.
    + eapply Permutation_in; [apply Permutation_sym; eauto|]. apply in_seq. lia.
Qed.

Lemma scatter_spec perm n vals : is_permutation perm n -> length vals = n ->
  length (scatter n perm vals) = n /\
  (forall k, k < n -> nth (nth k perm 0) (scatter n perm vals) 0 = nth k vals 0).
Proof.
  intros P L. destruct (perm_facts P) as (E & ND & B).
  destruct (@scatter_gen perm vals (repeat 0 n)) as (A1 & A2 & A3); auto; [lia| |].
  { intros p Hp. rewrite repeat_length. apply B; auto. }
  rewrite repeat_length in A1. split; [exact A1|]. intros k Hk. apply A2. lia.
Qed.

Lemma map_nth_perm_scatter perm n vals : is_permutation perm n -> length vals = n ->
  map (fun p => nth p (scatter n perm vals) 0) perm = vals.
Proof.
  intros P L. destruct (perm_facts P) as (E & ND & B).
  destruct (scatter_spec P L) as [_ S].
  apply nth_ext with (d := 0) (d' := 0); len.
  intros k Hk. 
  rewrite nth_indep with (d' := (fun p => nth p (scatter n perm vals) 0) 0) by len.
  rewrite (map_nth (fun p => nth p (scatter n perm vals) 0)). apply S. lia.
Qed.

(** ** strides *)
Lemma fold_left_mul l (f : nat -> nat) a :
  fold_left (fun acc j => acc * f j) l a = a * prod (map f l).
Proof.
  revert a; induction l as [|x l IH]; intros a; simpl; [lia|]. rewrite IH. unfold prod; simpl. lia.
Qed.

Lemma skipn_seq k : forall s n, skipn k (seq s n) = seq (s + k) (n - k).
Proof.
  induction k; intros s n; simpl; [rewrite Nat.add_0_r, Nat.sub_0_r; auto|].
  destruct n; simpl; auto. rewrite IHk. f_equal. lia.
Qed.

Lemma foldedStride_spec perm dims k :
  length perm = length dims -> foldedStride perm dims k = faster_product perm dims k.
Proof.
  intros E. unfold foldedStride, faster_product. rewrite fold_left_mul with (f := fun j => nth (nth j perm 0) dims 0).
  rewrite Nat.mul_1_l. f_equal.
  replace (skipn (S k) perm) with (map (fun j => nth j perm 0) (seq (k + 1) (length dims - (k + 1)))).
  - rewrite map_map. reflexivity.
  - transitivity (skipn (S k) (map (fun i => nth i perm 0) (seq 0 (length perm)))); [|rewrite map_nth_seq; auto].
    rewrite skipn_map, skipn_seq. rewrite E. f_equal. f_equal; lia.
Qed.

Lemma strides_length perm dims : is_permutation perm (length dims) ->
  length (calculateStrides perm dims) = length dims.
Proof. intros. apply scatter_spec; auto. len. Qed.

Lemma strides_spec perm dims k : is_permutation perm (length dims) -> k < length dims ->
  nth (nth k perm 0) (calculateStrides perm dims) 0 = faster_product perm dims k.
Proof.
  intros P Hk. destruct (perm_facts P) as (E & _).
  unfold calculateStrides.
  destruct (@scatter_spec perm (length dims) (map (foldedStride perm dims) (seq 0 (length dims))) P) as [_ S]; [len|].
  rewrite S by auto.
  rewrite nth_indep with (d' := foldedStride perm dims 0) by len.
  rewrite map_nth, seq_nth by auto. apply foldedStride_spec; auto.
Qed.

Lemma stride_one perm dims : is_permutation perm (length dims) -> 0 < length dims ->
  nth (strideOneDim perm) (calculateStrides perm dims) 0 = 1 /\ strideOneDim perm < length dims.
Proof.
  intros P H. destruct (perm_facts P) as (E & _ & B).
  assert (S : strideOneDim perm = nth (length dims - 1) perm 0).
  { unfold strideOneDim. rewrite <- E. destruct (rev perm) as [|x r] eqn:R.
    - apply (f_equal (@length nat)) in R. rewrite rev_length in R. simpl in R. lia.
    - assert (perm = rev r ++ [x]) as -> by (rewrite <- (rev_involutive perm), R; auto).
      rewrite last_last. rewrite app_nth2; rewrite app_length; simpl; [|lia].
      replace (length (rev r) + 1 - 1 - length (rev r)) with 0 by lia. auto. }
  rewrite S. split.
  - rewrite strides_spec by (auto; lia). unfold faster_product.
    rewrite skipn_all2 by lia. reflexivity.
  - apply B, nth_In. lia.
Qed.

(** ** linear index as a sum *)
Fixpoint zdot (ss : list nat) (ii : list Z) : Z :=
  match ss, ii with
  | s :: ss', i :: ii' => (i * Z.of_nat s + zdot ss' ii')%Z
  | _, _ => 0%Z
  end.

Lemma condMultiply_eq b a s : (b = true -> s = 1) -> condMultiply b a s = (a * Z.of_nat s)%Z.
Proof. intros H. unfold condMultiply. destruct b; auto. rewrite H by auto. lia. Qed.

Lemma getLinearIndex_zdot ss : forall usd ii, length ss = length ii ->
  (forall u, usd = Z.of_nat u -> u < length ss -> nth u ss 0 = 1) ->
  getLinearIndex usd ss ii = zdot ss ii.
Proof.
  induction ss as [|s ss IH]; intros usd ii L U; destruct ii as [|i ii]; try discriminate; auto.
  assert (C : condMultiply (usd =? 0)%Z i s = (i * Z.of_nat s)%Z).
  { apply condMultiply_eq. intros Hz. apply Z.eqb_eq in Hz. apply (U 0); simpl; lia. }
  simpl. destruct ii as [|j ii].
  - rewrite C. destruct ss; simpl; lia.
  - rewrite C. rewrite IH; auto.
    intros u Hu Hlt. apply (U (S u)); simpl; lia.
Qed.

(** nat version *)
Definition dot (ss ii : list nat) : nat :=
  list_sum (map (fun k => nth k ii 0 * nth k ss 0) (seq 0 (length ss))).

Lemma zdot_dot ss ii : length ss = length ii -> zdot ss (map Z.of_nat ii) = Z.of_nat (dot ss ii).
Proof.
  revert ii; induction ss as [|s ss IH]; intros [|i ii] L; try discriminate; auto.
  simpl zdot. rewrite IH by auto. unfold dot. simpl.
  rewrite <- seq_shift, map_map. simpl. lia.
Qed.

Lemma list_sum_perm a b : Permutation a b -> list_sum a = list_sum b.
Proof. induction 1; simpl; lia. Qed.

Lemma dot_perm perm ss ii : is_permutation perm (length ss) ->
  dot ss ii = list_sum (map (fun p => nth p ii 0 * nth p ss 0) perm).
Proof. intros P. unfold dot. apply list_sum_perm, Permutation_map, Permutation_sym, P. Qed.

(** Row-major (mixed radix) position. *)
Fixpoint lin (ds is : list nat) : nat :=
  match ds, is with
  | _ :: ds', i :: is' => i * prod ds' + lin ds' is'
  | _, _ => 0
  end.

Lemma lin_sum ds : forall is, length ds = length is ->
  lin ds is = list_sum (map (fun k => nth k is 0 * prod (skipn (S k) ds)) (seq 0 (length ds))).
Proof.
  induction ds as [|d ds IH]; intros [|i is] L; try discriminate; auto.
  simpl in L. injection L as L.
  change (lin (d :: ds) (i :: is)) with (i * prod ds + lin ds is). rewrite IH by auto.
  simpl length. rewrite <- cons_seq. rewrite <- seq_shift, map_cons, map_map.
  change (list_sum ?h) with (fold_right Nat.add 0 h). cbn [fold_right]. f_equal.
Qed.

Lemma lin_bound ds is : Forall2 lt is ds -> lin ds is < prod ds.
Proof.
  induction 1 as [|i d is ds H F IH]; simpl; [auto|].
  change (i * prod ds + lin ds is < d * prod ds). nia.
Qed.

Lemma lin_inj ds : forall is js, Forall2 lt is ds -> Forall2 lt js ds ->
  lin ds is = lin ds js -> is = js.
Proof.
  induction ds as [|d ds IH]; intros is js H1 H2 E.
  - inversion H1; inversion H2; auto.
  - inversion H1 as [|i ? is' ? Hi Fi]; subst. inversion H2 as [|j ? js' ? Hj Fj]; subst.
    simpl in E. pose proof (lin_bound Fi). pose proof (lin_bound Fj).
    assert (i = j) by nia. subst j. f_equal. apply IH; auto. lia.
Qed.

Lemma lin_surj ds : forall k, k < prod ds -> exists is, Forall2 lt is ds /\ lin ds is = k.
Proof.
  induction ds as [|d ds IH]; intros k Hk.
  - exists []. split; auto. simpl in *. unfold prod in Hk. simpl in Hk. lia.
  - change (prod (d :: ds)) with (d * prod ds) in Hk.
    assert (prod ds <> 0) by nia.
    destruct (IH (k mod prod ds)) as (is & F & E); [apply Nat.mod_upper_bound; auto|].
    exists (k / prod ds :: is). split.
    + constructor; auto. apply Nat.div_lt_upper_bound; auto. lia.
    + simpl. rewrite E. rewrite (Nat.div_mod k (prod ds)) at 3 by auto. lia.
Qed.

(** Reading a tuple in permutation order. *)
Definition gather (perm l : list nat) : list nat := map (fun p => nth p l 0) perm.

Lemma nth_gather perm l k : k < length perm -> nth k (gather perm l) 0 = nth (nth k perm 0) l 0.
Proof. revert k; induction perm as [|p perm IH]; intros [|k] H; simpl in *; auto; try lia. apply IH; lia. Qed.

Lemma dot_strides perm dims ii : is_permutation perm (length dims) -> length ii = length dims ->
  dot (calculateStrides perm dims) ii = lin (gather perm dims) (gather perm ii).
Proof.
  intros P L. destruct (perm_facts P) as (E & _).
  rewrite (@dot_perm perm) by (rewrite strides_length; auto).
  rewrite lin_sum by (unfold gather; len).
  rewrite <- (map_nth_seq perm 0) at 1. rewrite map_map.
  unfold gather at 3. rewrite map_length. f_equal. apply map_ext_in.
  intros k Hk. apply in_seq in Hk. rewrite strides_spec by (auto; lia).
  unfold faster_product, gather. rewrite skipn_map. f_equal. symmetry.
  apply nth_gather. lia.
Qed.

Lemma gather_prod perm dims : is_permutation perm (length dims) -> prod (gather perm dims) = prod dims.
Proof.
  intros P. rewrite <- (map_nth_seq dims 0) at 2. apply prod_perm. unfold gather.
  apply Permutation_map. exact P.
Qed.

Lemma gather_lt perm dims ii : is_permutation perm (length dims) -> Forall2 lt ii dims ->
  Forall2 lt (gather perm ii) (gather perm dims).
Proof.
  intros P F. destruct (perm_facts P) as (E & ND & B).
  assert (G : forall q, (forall p, In p q -> p < length dims) -> Forall2 lt (gather q ii) (gather q dims)).
  { clear -F. induction q as [|p q IH]; intros HB; simpl; constructor.
    - assert (Hp : p < length dims) by (apply HB; simpl; auto). clear -F Hp.
      revert p Hp; induction F; intros p Hp; simpl in *; [lia|]. destruct p; auto. apply IHF; lia.
    - apply IH. intros; apply HB; simpl; auto. }
  apply G. intros; apply B; auto.
Qed.

Lemma gather_inj perm n ii jj : is_permutation perm n -> length ii = n -> length jj = n ->
  gather perm ii = gather perm jj -> ii = jj.
Proof.
  intros P L1 L2 E. destruct (perm_facts P) as (EP & ND & B).
  apply nth_ext with (d := 0) (d' := 0); [lia|]. intros k Hk.
  assert (In k perm) as Hin by (apply B; lia).
  unfold gather in E. apply (proj1 (@map_ext_in_iff _ _ (fun p => nth p ii 0) (fun p => nth p jj 0) perm) E k Hin).
Qed.

Lemma Forall2_nth_lt ii dims : length ii = length dims ->
  (forall k, k < length dims -> nth k ii 0 < nth k dims 0) -> Forall2 lt ii dims.
Proof.
  revert ii; induction dims as [|d dims IH]; intros [|i ii] L H; try discriminate; constructor.
  - apply (H 0); simpl; lia.
  - apply IH; auto. intros k Hk. apply (H (S k)); simpl; lia.
Qed.

Lemma Forall2_nth_lt_inv ii dims : Forall2 lt ii dims ->
  forall k, k < length dims -> nth k ii 0 < nth k dims 0.
Proof. induction 1; simpl; intros k Hk; [lia|]. destruct k; auto. apply IHForall2; lia. Qed.

Lemma Forall2_len {A B} (R : A -> B -> Prop) l l' : Forall2 R l l' -> length l = length l'.
Proof. induction 1; simpl; auto. Qed.

Lemma scatter_valid perm dims js : is_permutation perm (length dims) ->
  Forall2 lt js (gather perm dims) -> Forall2 lt (scatter (length dims) perm js) dims.
Proof.
  intros P F. destruct (perm_facts P) as (EP & ND & B).
  assert (L : length js = length dims) by (rewrite (Forall2_len F); unfold gather; len).
  destruct (scatter_spec P L) as [SL SN].
  apply Forall2_nth_lt; auto. intros k Hk.
  assert (In k perm) as Hin by (apply B; lia).
  apply In_nth with (d := 0) in Hin. destruct Hin as (q & Hq & <-).
  rewrite SN by lia. pose proof (Forall2_nth_lt_inv F (k := q)) as Q.
  rewrite nth_gather in Q by auto. apply Q. unfold gather. len.
Qed.

(** ** signed and unsigned index tuples *)
Lemma valid_to_nat dims idx : valid_index dims idx ->
  Forall2 lt (map Z.to_nat idx) dims /\ map Z.of_nat (map Z.to_nat idx) = idx.
Proof.
  induction 1 as [|i d idx dims H F IH]; simpl; [auto|]. destruct IH as [A B]. split.
  - constructor; auto. lia.
  - f_equal; auto. lia.
Qed.

Lemma valid_of_nat dims is : Forall2 lt is dims -> valid_index dims (map Z.of_nat is).
Proof. induction 1; simpl; constructor; auto. lia. Qed.

Lemma linear_index_lin perm dims idx :
  is_permutation perm (length dims) -> 0 < length dims -> valid_index dims idx ->
  getLinearIndex (Z.of_nat (strideOneDim perm)) (calculateStrides perm dims) idx
  = Z.of_nat (lin (gather perm dims) (gather perm (map Z.to_nat idx))).
Proof.
  intros P H V. destruct (valid_to_nat V) as [F E].
  assert (L : length idx = length dims) by (apply Forall2_len in V; auto).
  rewrite getLinearIndex_zdot.
  - rewrite <- E at 1. rewrite zdot_dot by (rewrite strides_length by auto; len).
    rewrite dot_strides; auto. len.
  - rewrite strides_length; auto.
  - intros u Hu _. apply Nat2Z.inj in Hu. subst u. apply stride_one; auto.
Qed.

Theorem linear_index_in_range perm dims idx :
  is_permutation perm (length dims) -> 0 < length dims -> valid_index dims idx ->
  (0 <= getLinearIndex (Z.of_nat (strideOneDim perm)) (calculateStrides perm dims) idx
     < Z.of_nat (prod dims))%Z.
Proof.
  intros P H V. rewrite linear_index_lin by auto.
  destruct (valid_to_nat V) as [F _]. pose proof (lin_bound (gather_lt P F)).
  rewrite gather_prod in H0 by auto. lia.
Qed.

Theorem linear_index_injective perm dims i j :
  is_permutation perm (length dims) -> 0 < length dims -> valid_index dims i -> valid_index dims j ->
  getLinearIndex (Z.of_nat (strideOneDim perm)) (calculateStrides perm dims) i =
  getLinearIndex (Z.of_nat (strideOneDim perm)) (calculateStrides perm dims) j -> i = j.
Proof.
  intros P H Vi Vj E. rewrite !linear_index_lin in E by auto. apply Nat2Z.inj in E.
  destruct (valid_to_nat Vi) as [Fi Ei]. destruct (valid_to_nat Vj) as [Fj Ej].
  apply lin_inj in E; try (apply gather_lt; auto).
  apply gather_inj with (n := length dims) in E; auto.
  - rewrite <- Ei, <- Ej, E. auto.
  - apply Forall2_len in Fi. auto.
  - apply Forall2_len in Fj. auto.
Qed.

Theorem linear_index_surjective perm dims k :
  is_permutation perm (length dims) -> 0 < length dims -> (0 <= k < Z.of_nat (prod dims))%Z ->
  exists idx, valid_index dims idx /\
    getLinearIndex (Z.of_nat (strideOneDim perm)) (calculateStrides perm dims) idx = k.
Proof.
  intros P H Hk. 
  destruct (@lin_surj (gather perm dims) (Z.to_nat k)) as (js & F & E).
  { rewrite gather_prod by auto. lia. }
  pose proof (scatter_valid P F) as SV.
  exists (map Z.of_nat (scatter (length dims) perm js)). split; [apply valid_of_nat; auto|].
  rewrite linear_index_lin; auto; [|apply valid_of_nat; auto].
  rewrite map_map. erewrite map_ext with (g := fun x => x) by (intros; apply Nat2Z.id). rewrite map_id.
  unfold gather at 2. rewrite map_nth_perm_scatter; auto.
  - rewrite E. lia.
  - rewrite (Forall2_len F). unfold gather. destruct (perm_facts P). len.
Qed.
